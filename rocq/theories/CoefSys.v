(** Two Pieri operators given by their coefficients commute if the double sums
    of the coefficients are symmetric. *)

From Coq Require Import ZArith List Lia Bool Permutation QArith Qcanon Setoid Morphisms.
From Verif Require Import Py OrderFacts PyFacts ModelPart ModelQcalc ModelPoly ModelStr ModelGr Spec
  PolyFacts SuppFacts Enum FillFacts PartFacts PieriA QPieriA WSum OpTheory Sys Transfer.
Import ListNotations.
Open Scope Z_scope.

Definition tdec : forall x y : nat * list Z, {x = y} + {x <> y}.
Proof. decide equality; [apply l_dec|apply Nat.eq_dec]. Defined.

Lemma qS_inj d mu e nu : Permutation (qS d mu) (qS e nu) -> d = e /\ mu = nu.
Proof.
  intros H. assert (Hd : d = e).
  { pose proof (Permutation_length H) as E. unfold qS in E. simpl in E. rewrite !repeat_length in E. lia. }
  split; auto. subst e. assert (Hin : In (vS mu) (qS d nu)) by (eapply Permutation_in; [exact H|left; reflexivity]).
  destruct Hin as [E|E]; [injection E; auto|]. apply repeat_spec in E. discriminate.
Qed.

Definition wq (T : list (nat * list Z)) (W : nat -> list Z -> Qc) : poly := map (fun x => (qS (fst x) (snd x), W (fst x) (snd x))) T.
Lemma phi_wq T W f : phi f (wq T W) = qsum (fun x => (W (fst x) (snd x) * f (qS (fst x) (snd x)))%Qc) T.
Proof. induction T as [|x T IH]; [reflexivity|]. rewrite qsum_cons, <- IH. reflexivity. Qed.

Lemma qsum_delta {A} (dec : forall x y : A, {x = y} + {x <> y}) (f : A -> Qc) ls x : NoDup ls ->
  qsum (fun y => if dec y x then f y else 0%Qc) ls = if in_dec dec x ls then f x else 0%Qc.
Proof.
  induction 1 as [|y ls Hy Hn IH]; [reflexivity|]. rewrite qsum_cons, IH.
  destruct (dec y x) as [E|E], (in_dec dec x ls) as [Hi|Hi], (in_dec dec x (y :: ls)) as [Hj|Hj]; subst; simpl in *; try ring; exfalso; tauto.
Qed.

Lemma wq_coefs T W : NoDup T -> (forall d mu, W d mu <> 0%Qc -> In (d, mu) T) -> qcoefs (wq T W) W.
Proof.
  intros HT HW. split.
  - intros d mu. rewrite coef_phi, phi_wq.
    rewrite (qsum_ext _ (fun x => if tdec x (d, mu) then W (fst x) (snd x) else 0%Qc)).
    + rewrite (qsum_delta tdec (fun x => W (fst x) (snd x))) by auto. destruct (in_dec tdec (d, mu) T) as [H|H]; auto.
      destruct (Qc_eq_dec (W d mu) 0%Qc) as [E|E]; [auto|exfalso; apply H, HW, E].
    + intros [e nu] _. cbn [fst snd]. destruct (mono_eqb (qS e nu) (qS d mu)) eqn:E; destruct (tdec (e, nu) (d, mu)) as [E'|E']; unfold bq; try ring.
      * apply mono_eqb_perm, qS_inj in E. destruct E; subst. congruence.
      * injection E' as -> ->. apply mono_eqb_false in E. exfalso. apply E. reflexivity.
  - intros m Hm. rewrite coef_phi, phi_wq in Hm.
    destruct (existsb (fun x => mono_eqb (qS (fst x) (snd x)) m) T) eqn:Ex.
    + apply existsb_exists in Ex. destruct Ex as ([d mu] & _ & E). apply mono_eqb_perm in E. exists d, mu. symmetry. exact E.
    + exfalso. apply Hm. apply qsum_zero. intros x Hx. destruct (mono_eqb (qS (fst x) (snd x)) m) eqn:E; [|unfold bq; ring]. exfalso.
      assert (HT' : existsb (fun x => mono_eqb (qS (fst x) (snd x)) m) T = true); [|congruence]. apply existsb_exists. exists x. auto.
Qed.

Lemma qcoefs_eq p r W : qcoefs p W -> qcoefs r W -> peq p r.
Proof.
  intros (H1 & H2) (H3 & H4) m.
  destruct (Qc_eq_dec (coef p m) 0%Qc) as [E|E].
  - destruct (Qc_eq_dec (coef r m) 0%Qc) as [E'|E']; [congruence|]. destruct (H4 m E') as (d & mu & HP).
    rewrite (coef_perm p _ _ HP), (coef_perm r _ _ HP), H1, H3. reflexivity.
  - destruct (H2 m E) as (d & mu & HP). rewrite (coef_perm p _ _ HP), (coef_perm r _ _ HP), H1, H3. reflexivity.
Qed.

Section C.
Variable pi : Z -> list Z -> res poly.
Variable j : Z.
Variable V : list Z -> Prop.
Variable Wj : list Z -> nat -> list Z -> Qc.
Hypothesis HWj : forall l, V l -> qcoefs (P pi j l) (Wj l).

Definition comp (Wi : nat -> list Z -> Qc) (T : list (nat * list Z)) (d : nat) (nu : list Z) : Qc :=
  qsum (fun x => (Wi (fst x) (snd x) * (if (fst x <=? d)%nat then Wj (snd x) (d - fst x)%nat nu else 0))%Qc) T.

Lemma term_coefs e mu : V mu -> qcoefs (msubst (sigma pi j) (qS e mu)) (fun d nu => if (e <=? d)%nat then Wj mu (d - e)%nat nu else 0%Qc).
Proof.
  intros Hmu.
  assert (E : peq (pmul [(repeat VQ e, 1%Qc)] (P pi j mu)) (msubst (sigma pi j) (qS e mu))).
  { unfold qS. change (msubst (sigma pi j) (vS mu :: repeat VQ e))
      with (pmul (sigma pi j (vS mu)) (msubst (sigma pi j) (repeat VQ e))).
    rewrite (msubst_q pi (eq VQ) eqVQ_isqv j (repeat VQ e)).
    2: { clear. induction e; simpl; constructor; auto. }
    cbn [vS sigma]. rewrite pmul_comm. reflexivity. }
  eapply qcoefs_peq; [exact E|]. eapply qcoefs_ext; [|apply qcoefs_mul, HWj, Hmu].
  intros d l. cbv beta. destruct (e <=? d)%nat; ring.
Qed.

Lemma ext_coefs p Wi T : qcoefs p Wi -> NoDup T -> (forall d mu, Wi d mu <> 0%Qc -> In (d, mu) T) ->
  (forall x, In x T -> V (snd x)) -> qcoefs (ext pi j p) (comp Wi T).
Proof.
  intros Hp HT HW HV. assert (E : peq p (wq T Wi)) by (eapply qcoefs_eq; [exact Hp|apply wq_coefs; auto]).
  assert (HC : forall m, coef (ext pi j p) m = qsum (fun x => (Wi (fst x) (snd x) * coef (msubst (sigma pi j) (qS (fst x) (snd x))) m)%Qc) T).
  { intros m. unfold ext. rewrite coef_psubst. rewrite (phi_peq _ p (wq T Wi)); auto.
    - apply phi_wq.
    - intros a b Hab. apply msubst_perm. exact Hab. }
  split.
  - intros d nu. rewrite HC. apply qsum_ext. intros [e mu] Hx. cbn [fst snd]. f_equal.
    exact (proj1 (term_coefs e mu (HV _ Hx)) d nu).
  - intros m Hm. rewrite HC in Hm.
    destruct (existsb (fun x => negb (qc_is0 (coef (msubst (sigma pi j) (qS (fst x) (snd x))) m))) T) eqn:Ex.
    + apply existsb_exists in Ex. destruct Ex as (x & Hx & Hc). apply negb_true_iff, qc_is0_false in Hc.
      exact (proj2 (term_coefs _ _ (HV _ Hx)) m Hc).
    + exfalso. apply Hm. apply qsum_zero. intros x Hx.
      destruct (Qc_eq_dec (coef (msubst (sigma pi j) (qS (fst x) (snd x))) m) 0%Qc) as [E0|E0]; [rewrite E0; ring|]. exfalso.
      assert (HT' : existsb (fun x => negb (qc_is0 (coef (msubst (sigma pi j) (qS (fst x) (snd x))) m))) T = true); [|congruence].
      apply existsb_exists. exists x. split; auto. apply negb_true_iff, qc_is0_false, E0.
Qed.
End C.

Lemma comm_coefs pi (V : list Z -> Prop) T i j l Wi Wj : V l ->
  (forall l, V l -> qcoefs (P pi i l) (Wi l)) -> (forall l, V l -> qcoefs (P pi j l) (Wj l)) ->
  NoDup T -> (forall x, In x T -> V (snd x)) ->
  (forall d mu, Wi l d mu <> 0%Qc -> In (d, mu) T) -> (forall d mu, Wj l d mu <> 0%Qc -> In (d, mu) T) ->
  (forall d nu, comp Wj (Wi l) T d nu = comp Wi (Wj l) T d nu) ->
  peq (ext pi j (P pi i l)) (ext pi i (P pi j l)).
Proof.
  intros Hl Hi Hj HT HV HWi HWj HS. apply (qcoefs_eq _ _ (comp Wj (Wi l) T)).
  - apply (ext_coefs pi j V); auto.
  - eapply qcoefs_ext; [intros; symmetry; apply HS|]. apply (ext_coefs pi i V); auto.
Qed.

Lemma FinFun_nodup_map {A B} (f : A -> B) l : NoDup l -> (forall x y, In x l -> In y l -> f x = f y -> x = y) -> NoDup (map f l).
Proof.
  induction 1 as [|x l Hx Hl IH]; intros H; cbn [map]; constructor.
  - intros Hi. apply in_map_iff in Hi. destruct Hi as (y & E & Hy). assert (y = x) by (apply H; simpl; auto). subst. auto.
  - apply IH. intros; apply H; simpl; auto.
Qed.

(** ** classes indexed by another set *)
Section Enc.
Context {A : Type}.
Variable enc : A -> list Z.
Variable ws : list A.
Hypothesis Hws : NoDup ws.
Hypothesis Hinj : forall w v, In w ws -> In v ws -> enc w = enc v -> w = v.

(** the coefficients of [p] *)
Definition wcoefs (D : nat) (p : poly) (W : nat -> A -> Qc) : Prop :=
  (forall d v, In v ws -> coef p (qS d (enc v)) = W d v) /\
  (forall m, coef p m <> 0%Qc -> exists d v, (d < D)%nat /\ In v ws /\ Permutation m (qS d (enc v))).

Definition terms (D : nat) : list (nat * A) := flat_map (fun e => map (pair e) ws) (seq 0 D).
Lemma in_terms D e w : In (e, w) (terms D) <-> (e < D)%nat /\ In w ws.
Proof.
  unfold terms. rewrite in_flat_map. split.
  - intros (x & Hx & H). apply in_map_iff in H. destruct H as (y & E & Hy). injection E as <- <-. apply in_seq in Hx. split; auto; lia.
  - intros (H1 & H2). exists e. split; [apply in_seq; lia|]. apply in_map_iff. exists w. auto.
Qed.
Lemma terms_nodup D : NoDup (terms D).
Proof.
  unfold terms. assert (G : forall l, NoDup l -> NoDup (flat_map (fun e : nat => map (pair e) ws) l)).
  { induction 1 as [|e l He Hl IH]; [constructor|]. cbn [flat_map]. apply nodup_app; auto.
    - apply FinFun.Injective_map_NoDup; auto. intros a b E. injection E. auto.
    - intros x H1 H2. apply in_map_iff in H1. destruct H1 as (y & <- & Hy). apply in_flat_map in H2. destruct H2 as (e' & H3 & H4).
      apply in_map_iff in H4. destruct H4 as (y' & E & _). injection E as -> _. auto. }
  apply G, seq_NoDup.
Qed.
Lemma qsum_terms (f : nat -> A -> Qc) D : qsum (fun x => f (fst x) (snd x)) (terms D) = qsum (fun e => qsum (f e) ws) (seq 0 D).
Proof.
  unfold terms. induction (seq 0 D) as [|e l IH]; [reflexivity|]. cbn [flat_map]. rewrite qsum_app, qsum_cons, IH. f_equal.
  rewrite qsum_map. reflexivity.
Qed.

Lemma wcoefs_q D p W : wcoefs D p W -> qcoefs p (fun d mu => coef p (qS d mu)).
Proof. intros (H1 & H2). split; auto. intros m Hm. destruct (H2 m Hm) as (d & v & _ & _ & E). eauto. Qed.
Lemma wcoefs_in D p W d mu : wcoefs D p W -> coef p (qS d mu) <> 0%Qc -> exists v, (d < D)%nat /\ In v ws /\ mu = enc v.
Proof. intros (H1 & H2) H. destruct (H2 _ H) as (e & v & He & Hv & E). apply qS_inj in E. destruct E; subst. eauto. Qed.

Lemma comm_enc D pi i j (Wi Wj : A -> nat -> A -> Qc) w : In w ws ->
  (forall w, In w ws -> wcoefs D (P pi i (enc w)) (Wi w)) -> (forall w, In w ws -> wcoefs D (P pi j (enc w)) (Wj w)) ->
  (forall d v, In v ws -> qsum (fun x => (Wi w (fst x) (snd x) * (if (fst x <=? d)%nat then Wj (snd x) (d - fst x)%nat v else 0))%Qc) (terms D) =
     qsum (fun x => (Wj w (fst x) (snd x) * (if (fst x <=? d)%nat then Wi (snd x) (d - fst x)%nat v else 0))%Qc) (terms D)) ->
  peq (ext pi j (P pi i (enc w))) (ext pi i (P pi j (enc w))).
Proof.
  intros Hw Hi Hj HS.
  apply (comm_coefs pi (fun l => exists w, In w ws /\ enc w = l) (map (fun x => (fst x, enc (snd x))) (terms D)) i j (enc w)
    (fun l d mu => coef (P pi i l) (qS d mu)) (fun l d mu => coef (P pi j l) (qS d mu))).
  - eauto.
  - intros l (u & Hu & <-). eapply wcoefs_q, Hi; auto.
  - intros l (u & Hu & <-). eapply wcoefs_q, Hj; auto.
  - apply FinFun_nodup_map; [apply terms_nodup|]. intros [e u] [e' u'] H1 H2 E. cbn [fst snd] in E. injection E as -> E.
    apply in_terms in H1, H2. f_equal. apply Hinj; tauto.
  - intros x Hx. apply in_map_iff in Hx. destruct Hx as ([e u] & <- & Hu). apply in_terms in Hu. cbn. exists u. tauto.
  - intros d mu Hc. destruct (wcoefs_in _ _ _ _ _ (Hi w Hw) Hc) as (v & H1 & H2 & ->). apply in_map_iff. exists (d, v). rewrite in_terms. auto.
  - intros d mu Hc. destruct (wcoefs_in _ _ _ _ _ (Hj w Hw) Hc) as (v & H1 & H2 & ->). apply in_map_iff. exists (d, v). rewrite in_terms. auto.
  - intros d nu. unfold comp. rewrite !qsum_map. cbn [fst snd].
    assert (G : forall i j (Wi Wj : A -> nat -> A -> Qc), (forall w, In w ws -> wcoefs D (P pi i (enc w)) (Wi w)) -> (forall w, In w ws -> wcoefs D (P pi j (enc w)) (Wj w)) ->
      (forall v, In v ws -> nu = enc v -> qsum (fun x => (coef (P pi i (enc w)) (qS (fst x) (enc (snd x))) * (if (fst x <=? d)%nat then coef (P pi j (enc (snd x))) (qS (d - fst x) nu) else 0))%Qc) (terms D)
        = qsum (fun x => (Wi w (fst x) (snd x) * (if (fst x <=? d)%nat then Wj (snd x) (d - fst x)%nat v else 0))%Qc) (terms D)) /\
      (qsum (fun x => (coef (P pi i (enc w)) (qS (fst x) (enc (snd x))) * (if (fst x <=? d)%nat then coef (P pi j (enc (snd x))) (qS (d - fst x) nu) else 0))%Qc) (terms D) <> 0%Qc -> exists v, In v ws /\ nu = enc v)).
    { clear i j Wi Wj Hi Hj HS. intros i j Wi Wj Hi Hj. split.
      - intros v Hv ->. apply qsum_ext. intros [e u] Hx. apply in_terms in Hx. cbn [fst snd]. f_equal; [apply Hi; tauto|].
        destruct (e <=? d)%nat; auto. apply Hj; tauto.
      - intros Hne. destruct (existsb (fun x => negb (qc_is0 (if (fst x <=? d)%nat then coef (P pi j (enc (snd x))) (qS (d - fst x) nu) else 0%Qc))) (terms D)) eqn:Ex.
        + apply existsb_exists in Ex. destruct Ex as ([e u] & Hx & Hc). apply negb_true_iff, qc_is0_false in Hc. cbn [fst snd] in Hc.
          apply in_terms in Hx. destruct (e <=? d)%nat; [|congruence]. destruct (wcoefs_in _ _ _ _ _ (Hj u ltac:(tauto)) Hc) as (v & _ & H2 & H3). eauto.
        + exfalso. apply Hne. apply qsum_zero. intros x Hx.
          destruct (Qc_eq_dec (if (fst x <=? d)%nat then coef (P pi j (enc (snd x))) (qS (d - fst x) nu) else 0%Qc) 0%Qc) as [E0|E0]; [rewrite E0; ring|]. exfalso.
          assert (HT' : existsb (fun x => negb (qc_is0 (if (fst x <=? d)%nat then coef (P pi j (enc (snd x))) (qS (d - fst x) nu) else 0%Qc))) (terms D) = true); [|congruence].
          apply existsb_exists. exists x. split; auto. apply negb_true_iff, qc_is0_false, E0. }
    destruct (G i j Wi Wj Hi Hj) as [G1 G2]. destruct (G j i Wj Wi Hj Hi) as [G3 G4].
    match goal with |- ?a = ?b => destruct (Qc_eq_dec a 0%Qc) as [Ea|Ea]; [destruct (Qc_eq_dec b 0%Qc) as [Eb|Eb]; [congruence|]|] end.
    + destruct (G4 Eb) as (v & Hv & Ev). rewrite (G1 v Hv Ev), (G3 v Hv Ev). apply HS; auto.
    + destruct (G2 Ea) as (v & Hv & Ev). rewrite (G1 v Hv Ev), (G3 v Hv Ev). apply HS; auto.
Qed.
End Enc.
