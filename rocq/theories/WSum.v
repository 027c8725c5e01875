(** Linear combinations of classes with arbitrary coefficients: sums over a list
    of shapes, and maps of classes to classes. *)

From Coq Require Import ZArith List Lia Bool Permutation QArith Qcanon Setoid Morphisms.
From Verif Require Import Py OrderFacts PyFacts ModelPart ModelQcalc ModelPoly ModelGr Spec
  PolyFacts SuppFacts Enum FillFacts PartFacts PieriA QPieriA.
Import ListNotations.
Open Scope Z_scope.

(** the coefficients of [p] are given by [W] *)
Definition wval (W : list Z -> Qc) (m : mono) : Qc :=
  match m with [VS (SP l)] => W l | _ => 0%Qc end.
Definition lincl (p : poly) (W : list Z -> Qc) : Prop := forall m, coef p m = wval W m.

Lemma lincl_coef p W l : lincl p W -> coef p [vS l] = W l.
Proof. intros H. rewrite (H [vS l]). reflexivity. Qed.
Lemma lincl_peq p r W : peq p r -> lincl p W -> lincl r W.
Proof. intros E H m. rewrite <- (E m). apply H. Qed.
Lemma lincl_ext p W W' : (forall l, W l = W' l) -> lincl p W -> lincl p W'.
Proof.
  intros E H m. rewrite (H m). unfold wval. destruct m as [|[[l|t b]| | |] [|v m]]; auto.
Qed.
Lemma lincl_inv p W m : lincl p W -> coef p m <> 0%Qc -> exists l, m = [vS l] /\ W l <> 0%Qc.
Proof.
  intros H Hm. rewrite (H m) in Hm. unfold wval in Hm. destruct m as [|[[l|t b]| | |] [|v m]]; try congruence.
  exists l. auto.
Qed.
Lemma lincl_intro p W : (forall l, coef p [vS l] = W l) ->
  (forall m, coef p m <> 0%Qc -> exists l, m = [vS l]) -> lincl p W.
Proof.
  intros H1 H2 m. destruct (Qc_eq_dec (coef p m) 0%Qc) as [E|E].
  - rewrite E. unfold wval. destruct m as [|[[l|t b]| | |] [|v m]]; auto. rewrite <- H1. symmetry. exact E.
  - destruct (H2 m E) as (l & ->). rewrite H1. reflexivity.
Qed.

Definition l_dec := list_eq_dec Z.eq_dec.
Definition wl (ls : list (list Z)) (W : list Z -> Qc) : poly := map (fun l => ([vS l], W l)) ls.

Lemma perm_vS m l : Permutation m [vS l] <-> m = [vS l].
Proof.
  split; [|intros ->; reflexivity]. intros H. apply Permutation_sym, Permutation_length_1_inv in H. exact H.
Qed.
Lemma coef_cons m' c p m : coef ((m', c) :: p) m = (c * bq (mono_eqb m' m) + coef p m)%Qc.
Proof. simpl. destruct (mono_eqb m' m); unfold bq; ring. Qed.
Lemma eqb_vS a b : bq (mono_eqb [vS a] [vS b]) = if l_dec a b then 1%Qc else 0%Qc.
Proof.
  destruct (mono_eqb [vS a] [vS b]) eqn:E; destruct (l_dec a b) as [->|H]; auto.
  - apply mono_eqb_perm, perm_vS in E. injection E. congruence.
  - apply mono_eqb_false in E. exfalso. apply E. reflexivity.
Qed.
Lemma sum_delta (ls : list (list Z)) (W : list Z -> Qc) (f : list Z -> Qc) x : NoDup ls ->
  (forall l, In l ls -> f l = if l_dec l x then 1%Qc else 0%Qc) ->
  fold_right (fun l s => (W l * f l + s)%Qc) 0%Qc ls = if in_dec l_dec x ls then W x else 0%Qc.
Proof.
  induction 1 as [|l ls Hl Hn IH]; intros Hf; [reflexivity|]. cbn [fold_right].
  rewrite IH by (intros; apply Hf; simpl; auto). rewrite (Hf l) by (simpl; auto).
  destruct (in_dec l_dec x (l :: ls)) as [Hi|Hi], (in_dec l_dec x ls) as [Hj|Hj],
    (l_dec l x) as [Ex|Ex]; subst; simpl in *; try ring; exfalso; tauto.
Qed.
Lemma phi_wl ls W f : phi f (wl ls W) = fold_right (fun l s => (W l * f [vS l] + s)%Qc) 0%Qc ls.
Proof.
  induction ls as [|l ls IH]; [reflexivity|]. change (wl (l :: ls) W) with (([vS l], W l) :: wl ls W).
  cbn [phi fold_right]. rewrite IH. reflexivity.
Qed.
Lemma nf_nodup ls W p : nf p -> p = wl ls W -> NoDup ls.
Proof.
  intros Hnf E. assert (Hn : NoDup (map fst p)).
  { destruct Hnf as (Hs & _). clear -Hs. induction Hs as [|x l Hs IH Hf]; simpl; constructor; auto.
    intros Hi. apply in_map_iff in Hi. destruct Hi as (y & Ey & Hy). rewrite Forall_forall in Hf.
    specialize (Hf y Hy). unfold mlt in Hf. rewrite Ey in Hf. exact (mcmp_irrefl _ Hf). }
  rewrite E in Hn. unfold wl in Hn. rewrite map_map in Hn. simpl in Hn. eapply NoDup_map_inv. exact Hn.
Qed.

(** a linear combination is a finite sum *)
Lemma lincl_wl p W : lincl p W -> exists ls, NoDup ls /\ peq p (wl ls W) /\ forall l, W l <> 0%Qc <-> In l ls.
Proof.
  intros H.
  assert (Hs : rawsupp (fun m => exists l, m = [vS l]) (pnorm p)).
  { apply supp_rawnorm. intros m Hm. destruct (lincl_inv _ _ _ H Hm) as (l & -> & _). eauto. }
  assert (Hc : forall m c, In (m, c) (pnorm p) -> coef p m = c).
  { intros m c Hin. rewrite <- coef_pnorm. apply nf_coef_in; auto. apply pnorm_nf. }
  assert (Hnf : nf (pnorm p)) by apply pnorm_nf.
  assert (G : forall r, rawsupp (fun m => exists l, m = [vS l]) r -> (forall m c, In (m, c) r -> coef p m = c) ->
     exists ls, r = wl ls W).
  { induction r as [|[m c] r IH]; intros H1 H2; [exists []; reflexivity|].
    destruct IH as (ls & ->); [intros m' c' Hi; apply (H1 m' c'); right; auto|intros m' c' Hi; apply H2; right; auto|].
    destruct (H1 m c) as (l & ->); [left; auto|]. exists (l :: ls). simpl. f_equal. f_equal.
    rewrite <- (H2 [vS l] c) by (left; auto). rewrite (lincl_coef _ _ _ H). reflexivity. }
  destruct (G _ Hs Hc) as (ls & E). exists ls.
  assert (HW : forall l, In l ls -> W l <> 0%Qc).
  { intros l Hl. assert (Hin : In ([vS l], W l) (pnorm p)) by (rewrite E; apply in_map_iff; exists l; auto).
    destruct Hnf as (_ & Hf). intros E0. rewrite Forall_forall in Hf. apply (Hf _ Hin). exact E0. }
  assert (Hpe : peq p (wl ls W)) by (rewrite <- E, pnorm_peq; reflexivity).
  assert (Hnd : NoDup ls) by (eapply nf_nodup; eauto).
  split; auto. split; auto. intros l. split; auto. intros Hl.
  destruct (in_dec l_dec l ls) as [Hi|Hi]; auto. exfalso. apply Hl.
  rewrite <- (lincl_coef _ _ l H), (Hpe [vS l]), coef_phi, phi_wl.
  rewrite (sum_delta ls W _ l); auto.
  - destruct (in_dec l_dec l ls); [contradiction|auto].
  - intros a _. apply eqb_vS.
Qed.

(** ** Maps of classes *)

Definition opoly (o : option (list Z)) : poly := match o with None => pzero | Some l => pS l end.


Definition is_some (o : option (list Z)) (l : list Z) : Qc :=
  match o with None => 0%Qc | Some x => if l_dec x l then 1%Qc else 0%Qc end.
Lemma coef_pS x m : coef (pS x) m = wval (fun l => if l_dec x l then 1%Qc else 0%Qc) m.
Proof.
  unfold pS, pvar. cbn [coef]. destruct (mono_eqb [vS x] m) eqn:E.
  - apply mono_eqb_perm, Permutation_length_1_inv in E. subst m. unfold wval. simpl.
    destruct (l_dec x x); [ring|congruence].
  - apply mono_eqb_false in E. unfold wval. destruct m as [|[[l|t b]| | |] [|v m]]; auto.
    destruct (l_dec x l) as [->|]; auto. exfalso. apply E. reflexivity.
Qed.
Lemma coef_opoly o m : coef (opoly o) m = wval (is_some o) m.
Proof.
  destruct o as [x|]; [apply coef_pS|]. simpl. unfold wval. destruct m as [|[[l|t b]| | |] [|v m]]; auto.
Qed.

Lemma fold_ext {A} (f g : A -> Qc -> Qc) (ls : list A) :
  (forall x s, In x ls -> f x s = g x s) -> fold_right f 0%Qc ls = fold_right g 0%Qc ls.
Proof.
  induction ls as [|x ls IH]; simpl; intros H; auto. rewrite IH by (intros; apply H; auto). apply H; auto.
Qed.

Lemma apply_map (f : list Z -> res poly) (h : list Z -> option (list Z)) (g : list Z -> list Z) p W :
  lincl p W ->
  (forall l, W l <> 0%Qc -> exists x, f l = Ok x /\ peq x (opoly (h l))) ->
  (forall l l', W l <> 0%Qc -> (h l = Some l' <-> l = g l')) ->
  exists r, apply_lc (on_part f) p = Ok r /\ lincl r (fun l' => W (g l')).
Proof.
  intros Hp Hf Hg. destruct (lincl_wl _ _ Hp) as (ls & Hn & Hpe & HW).
  destruct (apply_lc_ok (on_part f) (lsub (fun l => opoly (h l))) p) as (r & Hr & Er).
  - intros m c v Hin Hv.
    assert (Hc : coef p m <> 0%Qc).
    { rewrite <- coef_pnorm. rewrite (nf_coef_in _ _ _ (pnorm_nf p) Hin).
      destruct (pnorm_nf p) as (_ & Hz). rewrite Forall_forall in Hz. apply (Hz _ Hin). }
    destruct (lincl_inv _ _ _ Hp Hc) as (l & -> & Hl). destruct Hv as [<-|[]]. simpl. apply Hf; auto.
  - exists r. split; auto. intros m. rewrite (Er m), coef_psubst.
    rewrite (phi_peq _ p (wl ls W)); auto.
    2:{ intros a b Hab. apply msubst_perm. exact Hab. }
    rewrite phi_wl.
    transitivity (fold_right (fun l s => (W l * wval (is_some (h l)) m + s)%Qc) 0%Qc ls).
    { apply fold_ext. intros l s _. f_equal. f_equal. rewrite <- coef_opoly.
      cbn [msubst fold_right vS lsub]. rewrite pmul_comm, pmul_1_l. reflexivity. }
    destruct m as [|[[l'|t b]| | |] [|v m]]; unfold wval;
      try (clear; induction ls as [|l ls IH]; simpl; [reflexivity|rewrite IH; ring]).
    rewrite (sum_delta ls W _ (g l')); auto.
    + destruct (in_dec l_dec (g l') ls) as [Hi|Hi]; auto.
      destruct (Qc_eq_dec (W (g l')) 0%Qc) as [E0|E0]; auto. exfalso. apply Hi, HW, E0.
    + intros l Hl. apply HW in Hl. specialize (Hg l l' Hl). unfold is_some. destruct (h l) as [x|].
      * destruct (l_dec x l') as [E0|E0], (l_dec l (g l')) as [E1|E1]; auto; exfalso.
        -- subst x. apply E1, Hg, eq_refl.
        -- apply Hg in E1. congruence.
      * destruct (l_dec l (g l')) as [E1|E1]; auto. apply Hg in E1. discriminate.
Qed.

(** ** Sums over a list of shapes *)

Lemma foldM_sum (step : poly -> list Z -> res poly) (e : list Z -> poly) ls acc :
  (forall x a, In x ls -> exists r, step a x = Ok r /\ peq r (padd a (e x))) ->
  exists r, foldM step ls acc = Ok r /\
    forall m, coef r m = (coef acc m + fold_right (fun x s => coef (e x) m + s) 0 ls)%Qc.
Proof.
  revert acc. induction ls as [|x ls IH]; intros acc H; simpl.
  - exists acc. split; auto. intros m. ring.
  - destruct (H x acc) as (r & -> & Hr); [simpl; auto|]. simpl.
    destruct (IH r) as (r' & E & H'); [intros; apply H; simpl; auto|]. exists r'. split; auto.
    intros m. rewrite H', (Hr m), coef_padd. ring.
Qed.

(** each class receives terms from only one shape *)
Lemma sum_own (own : list Z -> list Z) (e : list Z -> poly) ls l : NoDup ls ->
  (forall x, In x ls -> coef (e x) [vS l] <> 0%Qc -> x = own l) ->
  fold_right (fun x s => (coef (e x) [vS l] + s)%Qc) 0%Qc ls =
  if in_dec l_dec (own l) ls then coef (e (own l)) [vS l] else 0%Qc.
Proof.
  intros Hn Ho.
  transitivity (fold_right (fun x s => (coef (e x) [vS l] * (if l_dec x (own l) then 1 else 0) + s)%Qc) 0%Qc ls).
  - apply fold_ext. intros x s Hx. f_equal. destruct (l_dec x (own l)) as [|H]; [ring|].
    destruct (Qc_eq_dec (coef (e x) [vS l]) 0%Qc) as [E|E]; [rewrite E; ring|]. exfalso. apply H, Ho; auto.
  - apply (sum_delta ls (fun x => coef (e x) [vS l]) (fun x => if l_dec x (own l) then 1%Qc else 0%Qc)); auto.
Qed.
Lemma sum_zero (e : list Z -> poly) ls m : (forall x, In x ls -> coef (e x) m = 0%Qc) ->
  fold_right (fun x s => (coef (e x) m + s)%Qc) 0%Qc ls = 0%Qc.
Proof.
  induction ls as [|x ls IH]; intros H; simpl; auto. rewrite IH by (intros; apply H; simpl; auto).
  rewrite H by (simpl; auto). ring.
Qed.

Lemma foldM_lincl (step : poly -> list Z -> res poly) (e : list Z -> poly) (own : list Z -> list Z) ls : NoDup ls ->
  (forall x a, In x ls -> exists r, step a x = Ok r /\ peq r (padd a (e x))) ->
  (forall x m, In x ls -> coef (e x) m <> 0%Qc -> exists l, m = [vS l] /\ x = own l) ->
  exists r, foldM step ls pzero = Ok r /\
    lincl r (fun l => if in_dec l_dec (own l) ls then coef (e (own l)) [vS l] else 0%Qc).
Proof.
  intros Hn Hs Ho. destruct (foldM_sum step e ls pzero Hs) as (r & E & H). exists r. split; auto.
  apply lincl_intro.
  - intros l. rewrite H, (sum_own own); auto.
    + rewrite coef_nil. ring.
    + intros x Hx Hc. destruct (Ho x _ Hx Hc) as (l' & El & ->). injection El as <-. reflexivity.
  - intros m Hm. rewrite H, coef_nil in Hm.
    destruct (existsb (fun x => negb (qc_is0 (coef (e x) m))) ls) eqn:Ex.
    + apply existsb_exists in Ex. destruct Ex as (x & Hx & Hc). apply negb_true_iff, qc_is0_false in Hc.
      destruct (Ho x m Hx Hc) as (l & -> & _). eauto.
    + exfalso. apply Hm. rewrite sum_zero; [ring|]. intros x Hx.
      destruct (Qc_eq_dec (coef (e x) m) 0%Qc) as [E0|E0]; auto. exfalso.
      assert (HT : existsb (fun x => negb (qc_is0 (coef (e x) m))) ls = true); [|congruence].
      apply existsb_exists. exists x. split; auto. apply negb_true_iff, qc_is0_false, E0.
Qed.

(** ** Coefficients that are polynomials in q *)

Definition qcoefs (p : poly) (W : nat -> list Z -> Qc) : Prop :=
  (forall d mu, coef p (qS d mu) = W d mu) /\
  (forall m, coef p m <> 0%Qc -> exists d mu, Permutation m (qS d mu)).

Lemma qcoefs_peq p r W : peq p r -> qcoefs p W -> qcoefs r W.
Proof.
  intros E (H1 & H2). split; [intros; rewrite <- (E (qS d mu)); auto|]. intros m. rewrite <- (E m). auto.
Qed.
Lemma qcoefs_ext p W W' : (forall d l, W d l = W' d l) -> qcoefs p W -> qcoefs p W'.
Proof. intros E (H1 & H2). split; auto. intros. rewrite <- E. auto. Qed.
Lemma lincl_qcoefs p W : lincl p W -> qcoefs p (fun d l => match d with O => W l | _ => 0%Qc end).
Proof.
  intros H. split.
  - intros [|d] mu; rewrite (H (qS _ mu)); reflexivity.
  - intros m Hm. destruct (lincl_inv _ _ _ H Hm) as (l & -> & _). exists O, l. reflexivity.
Qed.
Lemma qcoefs_padd p r W W' : qcoefs p W -> qcoefs r W' -> qcoefs (padd p r) (fun d l => (W d l + W' d l)%Qc).
Proof.
  intros (H1 & H2) (H3 & H4). split.
  - intros d mu. rewrite coef_padd, H1, H3. reflexivity.
  - intros m Hm. rewrite coef_padd in Hm. destruct (Qc_eq_dec (coef p m) 0%Qc) as [E|E]; auto.
    apply H4. intros E'. apply Hm. rewrite E, E'. ring.
Qed.

Lemma qS_split e d mu : Permutation (repeat VQ e ++ qS d mu) (qS (e + d) mu).
Proof. unfold qS. rewrite <- Permutation_middle, repeat_app. reflexivity. Qed.
Lemma qS_shift e b d mu : Permutation (repeat VQ e ++ b) (qS d mu) <-> (e <= d)%nat /\ Permutation b (qS (d - e) mu).
Proof.
  split.
  - intros H. assert (He : (e <= d)%nat).
    { assert (HC : (count_occ var_eq_dec (repeat VQ e ++ b) VQ = count_occ var_eq_dec (qS d mu) VQ)%nat)
        by (apply Permutation_count_occ; auto).
      rewrite count_occ_app, count_occ_repeat_eq in HC by auto. unfold qS in HC. simpl in HC.
      destruct (var_eq_dec (vS mu) VQ) as [E|E]; [discriminate|]. rewrite count_occ_repeat_eq in HC by auto. lia. }
    split; auto. replace d with (e + (d - e))%nat in H at 1 by lia. rewrite <- qS_split in H.
    apply Permutation_app_inv_l in H. exact H.
  - intros (He & H). rewrite H, qS_split. replace (e + (d - e))%nat with d by lia. reflexivity.
Qed.
Lemma qcoefs_mul c e p W : qcoefs p W ->
  qcoefs (pmul [(repeat VQ e, c)] p) (fun d l => if (e <=? d)%nat then (c * W (d - e)%nat l)%Qc else 0%Qc).
Proof.
  intros (H1 & H2).
  assert (HC : forall m, coef (pmul [(repeat VQ e, c)] p) m = (c * phi (fun b => bq (mono_eqb (repeat VQ e ++ b) m)) p)%Qc).
  { intros m. rewrite coef_pmul. cbn [phi]. ring. }
  split.
  - intros d mu. rewrite HC. destruct (Nat.leb_spec e d) as [Hd|Hd].
    + f_equal. rewrite <- H1, coef_phi. apply phi_ext. intros b x _. f_equal.
      destruct (mono_eqb b (qS (d - e) mu)) eqn:E.
      * apply mono_eqb_perm. apply qS_shift. split; auto. apply mono_eqb_perm. exact E.
      * apply mono_eqb_false in E. apply mono_eqb_false. intros HP. apply E. apply qS_shift in HP. tauto.
    + rewrite phi_zero; [ring|]. intros b x _. destruct (mono_eqb _ _) eqn:E; auto. exfalso.
      apply mono_eqb_perm, qS_shift in E. lia.
  - intros m Hm. rewrite HC in Hm.
    destruct (existsb (fun bc => mono_eqb (repeat VQ e ++ fst bc) m) (pnorm p)) eqn:Ex.
    + apply existsb_exists in Ex. destruct Ex as ([b x] & Hin & E). apply mono_eqb_perm in E. simpl in E.
      destruct (H2 b) as (d & mu & HP).
      * rewrite <- coef_pnorm, (nf_coef_in _ _ _ (pnorm_nf p) Hin).
        destruct (pnorm_nf p) as (_ & Hz). rewrite Forall_forall in Hz. apply (Hz _ Hin).
      * exists (e + d)%nat, mu. rewrite <- E, HP. apply qS_split.
    + exfalso. apply Hm. rewrite <- (phi_pnorm_inv _ p).
      * rewrite phi_zero; [ring|]. intros b x Hin. destruct (mono_eqb (repeat VQ e ++ b) m) eqn:E; auto. exfalso.
        assert (HT : existsb (fun bc => mono_eqb (repeat VQ e ++ fst bc) m) (pnorm p) = true); [|congruence].
        apply existsb_exists. exists (b, x). auto.
      * intros x y Hxy. f_equal. destruct (mono_eqb (repeat VQ e ++ x) m) eqn:E1, (mono_eqb (repeat VQ e ++ y) m) eqn:E2; auto; exfalso.
        -- apply mono_eqb_perm in E1. apply mono_eqb_false in E2. apply E2. rewrite <- Hxy. auto.
        -- apply mono_eqb_perm in E2. apply mono_eqb_false in E1. apply E1. rewrite Hxy. auto.
Qed.
