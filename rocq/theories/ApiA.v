(** Type A properties in the form of the API: the lemmas behind PropsA.v. *)

From Coq Require Import ZArith List Lia Bool Permutation QArith Qcanon Setoid Morphisms.
From Verif Require Import Py OrderFacts ModelPart ModelQcalc ModelPoly ModelStr ModelGr Spec
  PolyFacts SuppFacts OpTheory Enum PyFacts FillFacts PartFacts PieriA QPieriA CylA Sys Sys2 SysApi RingA FactsA.
Import ListNotations.
Open Scope Z_scope.

(** the special classes of Gr(m,n) *)
Definition special (k : Z) (l : list Z) : Prop := exists i, 1 <= i <= k /\ l = [i].

(** ** Sums of distinct terms are determined by their terms *)
Lemma is_sum_peq p r R : peq p r -> is_sum_of p R -> is_sum_of r R.
Proof.
  intros E [H1 H2]. split.
  - intros d mu Hr. rewrite <- (E _). auto.
  - intros m Hm. apply H2. rewrite (E m). auto.
Qed.
Lemma is_sum_iff p (R R' : nat -> list Z -> Prop) : (forall d mu, R d mu <-> R' d mu) -> is_sum_of p R -> is_sum_of p R'.
Proof.
  intros E [H1 H2]. split.
  - intros d mu Hr. apply H1, E, Hr.
  - intros m Hm. destruct (H2 m Hm) as (d & mu & Hr & HP). exists d, mu. split; auto. apply E; auto.
Qed.
Lemma is_sum_unique p r R : is_sum_of p R -> is_sum_of r R -> peq p r.
Proof.
  intros [H1 H2] [H3 H4] m.
  destruct (Qc_eq_dec (coef p m) 0%Qc) as [E|E].
  - destruct (Qc_eq_dec (coef r m) 0%Qc) as [E'|E']; [congruence|].
    destruct (H4 m E') as (d & mu & Hr & HP). rewrite !(coef_perm _ _ _ HP). rewrite H1, H3; auto.
  - destruct (H2 m E) as (d & mu & Hr & HP). rewrite !(coef_perm _ _ _ HP). rewrite H1, H3; auto.
Qed.
Lemma is_sum_pS l : is_sum_of (pS l) (fun d mu => d = O /\ mu = l).
Proof.
  split.
  - intros d mu (-> & ->). apply coef_pS_same.
  - intros m Hm. apply coef_pvar_neq0 in Hm. subst. exists O, l. split; auto.
Qed.

Lemma sysA_any m k (qq : bool) : 0 <= m -> 0 <= k -> exists I mu,
  pieri_sys TA (piA m k qq) (in_box m k) I k mu (giam_fuel (gA m k)) /\ (forall i, I i -> IA k i).
Proof.
  intros Hm Hk. destruct (Z.eq_dec m 0) as [->|Hne].
  - exists (fun _ => False), (fun _ => O). split; [apply sysA0; auto | tauto].
  - exists (IA k), (muA k). split; auto. apply sysA; lia.
Qed.

Lemma sysA_gr m n g : Grassmannian m n = Ok g ->
  (exists I mu, pieri_sys (g_type g) (pieri_fun g) (in_box m (n - m)) I (g_k g) mu (giam_fuel g)) /\
  (exists I mu, pieri_sys (g_type g) (qpieri_fun g) (in_box m (n - m)) I (g_k g) mu (giam_fuel g)).
Proof.
  intros Hg. apply gr_inv in Hg. destruct Hg as (Hm & Hk & ->).
  destruct (sysA_any m (n - m) false Hm Hk) as (I1 & mu1 & H1 & _).
  destruct (sysA_any m (n - m) true Hm Hk) as (I2 & mu2 & H2 & _).
  split; [exists I1, mu1 | exists I2, mu2]; auto.
Qed.

Ltac sysA Hg := destruct (sysA_gr _ _ _ Hg) as [(I1 & mu1 & S1) (I2 & mu2 & S2)].

Lemma c05 m n g a b : Grassmannian m n = Ok g ->
  lin_comb (in_box m (n - m)) a -> lin_comb (in_box m (n - m)) b ->
  (exists r r', mult g a b = Ok r /\ mult g b a = Ok r' /\ peq r r') /\
  (exists r r', qmult g a b = Ok r /\ qmult g b a = Ok r' /\ peq r r').
Proof. intros Hg Ha Hb. sysA Hg. split; [apply (api_comm S1) | apply (api_comm S2)]; auto. Qed.

Lemma c06 m n g a b c : Grassmannian m n = Ok g ->
  lin_comb (in_box m (n - m)) a -> lin_comb (in_box m (n - m)) b -> lin_comb (in_box m (n - m)) c ->
  (exists ab bc r r', mult g a b = Ok ab /\ mult g ab c = Ok r /\ mult g b c = Ok bc /\
     mult g a bc = Ok r' /\ peq r r') /\
  (exists ab bc r r', qmult g a b = Ok ab /\ qmult g ab c = Ok r /\ qmult g b c = Ok bc /\
     qmult g a bc = Ok r' /\ peq r r').
Proof. intros Hg Ha Hb Hc. sysA Hg. split; [apply (api_assoc S1) | apply (api_assoc S2)]; auto. Qed.

Lemma c07_unit m n g a : Grassmannian m n = Ok g -> lin_comb (in_box m (n - m)) a ->
  (exists r r', mult g (pS []) a = Ok r /\ mult g a (pS []) = Ok r' /\ peq r a /\ peq r' a) /\
  (exists r r', qmult g (pS []) a = Ok r /\ qmult g a (pS []) = Ok r' /\ peq r a /\ peq r' a).
Proof. intros Hg Ha. sysA Hg. split; [apply (api_unit S1) | apply (api_unit S2)]; auto. Qed.

Lemma c07_add m n g a b c : Grassmannian m n = Ok g ->
  lin_comb (in_box m (n - m)) a -> lin_comb (in_box m (n - m)) b -> lin_comb (in_box m (n - m)) c ->
  ((exists r x y, mult g (padd a b) c = Ok r /\ mult g a c = Ok x /\ mult g b c = Ok y /\ peq r (padd x y)) /\
   (exists r x y, mult g a (padd b c) = Ok r /\ mult g a b = Ok x /\ mult g a c = Ok y /\ peq r (padd x y))) /\
  ((exists r x y, qmult g (padd a b) c = Ok r /\ qmult g a c = Ok x /\ qmult g b c = Ok y /\ peq r (padd x y)) /\
   (exists r x y, qmult g a (padd b c) = Ok r /\ qmult g a b = Ok x /\ qmult g a c = Ok y /\ peq r (padd x y))).
Proof.
  intros Hg Ha Hb Hc. sysA Hg.
  split; (split; [apply (api_add_l S1) || apply (api_add_l S2) | apply (api_add_r S1) || apply (api_add_r S2)]); auto.
Qed.

Lemma c07_scale m n g a b c : Grassmannian m n = Ok g ->
  lin_comb (in_box m (n - m)) a -> lin_comb (in_box m (n - m)) b ->
  (exists r x y, mult g a b = Ok r /\ mult g (pscale c a) b = Ok x /\ mult g a (pscale c b) = Ok y /\
    peq x (pscale c r) /\ peq y (pscale c r)) /\
  (exists r x y, qmult g a b = Ok r /\ qmult g (pscale c a) b = Ok x /\ qmult g a (pscale c b) = Ok y /\
    peq x (pscale c r) /\ peq y (pscale c r)).
Proof. intros Hg Ha Hb. sysA Hg. split; [apply (api_scale S1) | apply (api_scale S2)]; auto. Qed.

Lemma c07_q m n g a b : Grassmannian m n = Ok g ->
  lin_comb (in_box m (n - m)) a -> lin_comb (in_box m (n - m)) b ->
  (exists r x y, mult g a b = Ok r /\ mult g (pmul (pvar VQ) a) b = Ok x /\
    mult g a (pmul (pvar VQ) b) = Ok y /\ peq x (pmul (pvar VQ) r) /\ peq y (pmul (pvar VQ) r)) /\
  (exists r x y, qmult g a b = Ok r /\ qmult g (pmul (pvar VQ) a) b = Ok x /\
    qmult g a (pmul (pvar VQ) b) = Ok y /\ peq x (pmul (pvar VQ) r) /\ peq y (pmul (pvar VQ) r)).
Proof. intros Hg Ha Hb. sysA Hg. split; [apply (api_q S1) | apply (api_q S2)]; auto. Qed.

Lemma c08_mul m n g a b : Grassmannian m n = Ok g ->
  poly_in (in_box m (n - m)) a -> poly_in (in_box m (n - m)) b ->
  (exists x y r s, toS g a = Ok x /\ toS g b = Ok y /\ toS g (pmul a b) = Ok r /\ mult g x y = Ok s /\
    peq r s /\ lin_comb (in_box m (n - m)) r) /\
  (exists x y r s, qtoS g a = Ok x /\ qtoS g b = Ok y /\ qtoS g (pmul a b) = Ok r /\ qmult g x y = Ok s /\
    peq r s /\ lin_comb (in_box m (n - m)) r).
Proof. intros Hg Ha Hb. sysA Hg. split; [apply (api_toS_mul S1) | apply (api_toS_mul S2)]; auto. Qed.

Lemma c08_add m n g a b : Grassmannian m n = Ok g ->
  poly_in (in_box m (n - m)) a -> poly_in (in_box m (n - m)) b ->
  (exists x y r, toS g a = Ok x /\ toS g b = Ok y /\ toS g (padd a b) = Ok r /\ peq r (padd x y)) /\
  (exists x y r, qtoS g a = Ok x /\ qtoS g b = Ok y /\ qtoS g (padd a b) = Ok r /\ peq r (padd x y)).
Proof. intros Hg Ha Hb. sysA Hg. split; [apply (api_toS_add S1) | apply (api_toS_add S2)]; auto. Qed.

Lemma c04_lin m n g a : Grassmannian m n = Ok g -> lin_comb (in_box m (n - m)) a ->
  (exists r, toS g a = Ok r /\ peq r a) /\ (exists r, qtoS g a = Ok r /\ peq r a).
Proof. intros Hg Ha. sysA Hg. split; [apply (api_toS_lin S1) | apply (api_toS_lin S2)]; auto. Qed.

Section A1.
Variables m k : Z.
Hypothesis Hm : 1 <= m.
Hypothesis Hk : 0 <= k.
Let g := gA m k.
Notation V := (in_box m k).
Notation lq := (supp (linm V (eq VQ))).

Definition giamA (qq : bool) lam := apply_lc (on_part (giambelli_rec_inner (giam_fuel g) (piA m k qq) k)) (pS lam).

Lemma c04_giam (qq : bool) lam : V lam ->
  exists e r, giamA qq lam = Ok e /\ poly_in (special k) e /\
    act_with TA (piA m k qq) e (pS []) = Ok r /\ peq r (pS lam).
Proof.
  intros Hl. pose proof (sysA m k Hm Hk qq) as H.
  destruct (sys_giam H lam Hl) as (E & E1 & E2 & E3).
  destruct (on_class (giambelli_rec_inner (giam_fuel g) (piA m k qq) k) lam E E1) as (e & Ee & Pe).
  assert (Hs : spoly (IA k) (eq VQ) e) by (eapply supp_peq; [symmetry; exact Pe | exact E2]).
  assert (Ha : exists r, act_with TA (piA m k qq) e (pS []) = Ok r /\ peq r (OpN TA (piA m k qq) e (pS []))).
  { pose proof (sys_lq_one H). destruct H.
    eapply (act_with_ok TA (piA m k qq) V (IA k) (eq VQ) eqVQ_isqv eq_refl); first [eassumption | intros; apply eqVQ_only; assumption]. }
  destruct Ha as (r & Er & Pr). exists e, r. split; [exact Ee|]. split.
  - apply poly_in_iff. eapply supp_impl; [|exact Hs]. intros mo. apply Forall_impl.
    intros v [->|(i & Hi & ->)]; auto. right. exists [i]. split; [exists i; auto|].
    unfold sv, num2spec. destruct (0 <? i) eqn:E0; auto. apply Z.ltb_ge in E0. unfold IA in Hi. lia.
  - split; auto. rewrite Pr, Pe. auto.
Qed.

(** multiplication by a special class *)
Lemma special_P (qq : bool) i : 1 <= i <= k -> peq (pS [i]) (P (piA m k qq) i []).
Proof.
  intros Hi. assert (Hn : V []) by (apply in_box_nil; lia).
  assert (Hi' : V [i]).
  { split; [|split; [simpl; lia|unfold part; simpl; lia]]. split.
    - intros [|j] Hj; unfold part; simpl in *; lia.
    - intros [|[|j]]; unfold part; simpl; lia. }
  assert (Hone : forall mu, V mu -> adds_horizontal_strip [] mu -> size mu = size [] + i -> mu = [i]).
  { intros mu [[Hp1 Hp2] _] Hs E. destruct mu as [|a mu]; [unfold size in E; simpl in E; lia|].
    destruct mu as [|b mu].
    - unfold size in E; simpl in E. f_equal; lia.
    - exfalso. specialize (Hp1 1%nat ltac:(simpl; lia)). specialize (Hs 0%nat).
      unfold part in *. simpl in *. lia. }
  assert (Hst : adds_horizontal_strip [] [i]).
  { intros [|[|j]]; unfold part; simpl; lia. }
  assert (Hs : is_sum_of (P (piA m k qq) i []) (fun d mu => d = O /\ mu = [i])).
  { destruct (on_class (piA m k qq i) [] (P (piA m k qq) i [])) as (p & Ep & Pp).
    { destruct (piA_enum m k Hm Hk qq i [] Hn (IA_dom k qq i Hi)) as (x & Ex & _). unfold P. rewrite Ex. auto. }
    destruct qq.
    - destruct (qpieriA_sum m k Hm Hk i [] Hn Hi) as (p' & E' & S').
      change (qpieri (gA m k) i (pS [])) with (apply_lc (on_part (piA m k true i)) (pS [])) in E'.
      rewrite Ep in E'. inversion E'; subst p'. eapply is_sum_peq; [exact Pp|]. eapply is_sum_iff; [|exact S'].
      intros d mu. split.
      + intros (Hmu & [(-> & H1 & H2)|(-> & [H1 _] & H2)]); auto. exfalso.
        specialize (H1 O ltac:(lia)). destruct Hmu as [[Hp _] _].
        destruct mu as [|x mu]; [unfold part in H1; simpl in H1; lia|].
        specialize (Hp O ltac:(simpl; lia)). unfold part in *; simpl in *. lia.
      + intros (-> & ->). split; auto. left. repeat split; auto; try apply Hst. unfold size; simpl; lia.
    - destruct (pieriA_sum m k Hm Hk i [] Hn ltac:(lia)) as (p' & E' & S').
      change (pieri (gA m k) i (pS [])) with (apply_lc (on_part (piA m k false i)) (pS [])) in E'.
      rewrite Ep in E'. inversion E'; subst p'. eapply is_sum_peq; [exact Pp|]. eapply is_sum_iff; [|exact S'].
      intros d mu. split.
      + intros (-> & Hmu & H1 & H2). auto.
      + intros (-> & ->). repeat split; auto; try apply Hst; try apply Hi'. unfold size; simpl; lia. }
  apply (is_sum_unique _ _ _ (is_sum_pS [i]) Hs).
Qed.

Lemma c43 (qq : bool) i c : 1 <= i <= k -> lin_comb V c ->
  exists r r', prod TA (piA m k qq) k (giam_fuel g) (pS [i]) c = Ok r /\
    apply_lc (on_part (piA m k qq i)) c = Ok r' /\ peq r r'.
Proof.
  intros Hi Hc. pose proof (sysA m k Hm Hk qq) as H.
  assert (Hv : V [i]).
  { split; [|split; [simpl; lia|unfold part; simpl; lia]]. split.
    - intros [|j] Hj; unfold part; simpl in *; lia.
    - intros [|[|j]]; unfold part; simpl; lia. }
  destruct (api_prod H (pS [i]) c) as (r & E & Pr & _); auto using lin_comb_poly_in, lin_comb_pS.
  apply lin_comb_iff in Hc.
  destruct (pi_lc m k Hm Hk qq i c (IA_dom k qq i Hi) Hc) as (r' & E' & Pr').
  exists r, r'. split; auto. split; auto. rewrite Pr, Pr'.
  apply (sys_pieri H); auto using special_P.
Qed.

Lemma c09_toS a : poly_in V a ->
  exists x r, prod TA (piA m k true) k (giam_fuel g) a (pS []) = Ok x /\
    prod TA (piA m k false) k (giam_fuel g) (psubst z0 a) (pS []) = Ok r /\ peq (psubst z0 x) r.
Proof.
  intros Ha. pose proof (sysA m k Hm Hk true) as H1. pose proof (sysA m k Hm Hk false) as H2.
  assert (Hz : poly_in V (psubst z0 a)) by (apply poly_in_iff, z0_vp, poly_in_iff; auto).
  assert (Hn : lin_comb V (pS [])) by (apply lin_comb_pS, in_box_nil; lia).
  destruct (api_prod H1 a (pS [])) as (x & E & Px & _); auto.
  destruct (api_prod H2 (psubst z0 a) (pS [])) as (r & E' & Pr & _); auto.
  exists x, r. split; auto. split; auto. rewrite Px, Pr. apply poly_in_iff in Ha. apply lin_comb_iff in Hn.
  rewrite (sys_q0_poly H1 H2 (P_q0 m k Hm Hk) a (pS []) Ha Hn).
  rewrite (psubst_pvar z0 (vS []) : peq (psubst z0 (pS [])) (pS [])). reflexivity.
Qed.

Lemma c09_mult a b : lin_comb V a -> lin_comb V b ->
  exists x r, prod TA (piA m k true) k (giam_fuel g) a b = Ok x /\
    prod TA (piA m k false) k (giam_fuel g) (psubst z0 a) (psubst z0 b) = Ok r /\ peq (psubst z0 x) r.
Proof.
  intros Ha Hb. pose proof (sysA m k Hm Hk true) as H1. pose proof (sysA m k Hm Hk false) as H2.
  assert (Hz : lin_comb V (psubst z0 a)) by (apply lin_comb_iff, z0_lq, lin_comb_iff; auto).
  assert (Hzb : lin_comb V (psubst z0 b)) by (apply lin_comb_iff, z0_lq, lin_comb_iff; auto).
  destruct (api_prod H1 a b) as (x & E & Px & _); auto using lin_comb_poly_in.
  destruct (api_prod H2 (psubst z0 a) (psubst z0 b)) as (r & E' & Pr & _); auto using lin_comb_poly_in.
  exists x, r. split; auto. split; auto. rewrite Px, Pr. apply lin_comb_iff in Ha. apply lin_comb_iff in Hb.
  apply (M_q0 m k Hm Hk); auto.
Qed.

End A1.

(** [p] with [q = 0] *)
Lemma z0_same p : same_q_free_part (psubst z0 p) p.
Proof. intros m Hm. apply coef_z0; auto. Qed.
Lemma q_free_z0 p : (forall m, In VQ m -> coef p m = 0%Qc) -> peq (psubst z0 p) p.
Proof. intros Hq. apply z0_free. intros m Hm Hin. apply Hm, Hq; auto. Qed.

Lemma prod_peq_arg {t pi V I k mu fuel} (H : pieri_sys t pi V I k mu fuel) a a' b b' r :
  peq a a' -> peq b b' -> poly_in V a -> lin_comb V b -> prod t pi k fuel a b = Ok r ->
  exists r', prod t pi k fuel a' b' = Ok r' /\ peq r r'.
Proof.
  intros Ea Eb Ha Hb Er.
  destruct (api_prod H a b Ha Hb) as (r0 & E0 & P0 & _). rewrite Er in E0. inversion E0; subst r0.
  destruct (api_prod H a' b') as (r' & E' & P' & _).
  - apply poly_in_iff. apply poly_in_iff in Ha. eapply supp_peq; eauto.
  - apply lin_comb_iff. apply lin_comb_iff in Hb. eapply supp_peq; eauto.
  - exists r'. split; auto. rewrite P0, P', Ea, Eb. reflexivity.
Qed.

Lemma c09 m n g : Grassmannian m n = Ok g -> 1 <= m ->
  (forall a b, lin_comb0 (in_box m (n - m)) a -> lin_comb0 (in_box m (n - m)) b ->
     exists x r, qmult g a b = Ok x /\ mult g a b = Ok r /\ same_q_free_part x r).
Proof.
  intros Hg Hm a b Ha Hb. apply gr_inv in Hg. destruct Hg as (_ & Hk & ->).
  assert (La := lin_comb0_lin _ _ Ha). assert (Lb := lin_comb0_lin _ _ Hb).
  assert (Fa : peq (psubst z0 a) a).
  { apply z0_free. intros mo Hc Hin. destruct (Ha mo Hc) as (x & _ & ->). destruct Hin as [E|[]]. discriminate. }
  assert (Fb : peq (psubst z0 b) b).
  { apply z0_free. intros mo Hc Hin. destruct (Hb mo Hc) as (x & _ & ->). destruct Hin as [E|[]]. discriminate. }
  destruct (c09_mult m (n - m) Hm Hk a b La Lb) as (x & r & E1 & E2 & E3).
  assert (La' : lin_comb (in_box m (n - m)) (psubst z0 a))
    by (apply lin_comb_iff; apply lin_comb_iff in La; eapply supp_peq; [symmetry; exact Fa|]; auto).
  assert (Lb' : lin_comb (in_box m (n - m)) (psubst z0 b))
    by (apply lin_comb_iff; apply lin_comb_iff in Lb; eapply supp_peq; [symmetry; exact Fb|]; auto).
  destruct (prod_peq_arg (sysA m (n - m) Hm Hk false) _ a _ b r Fa Fb) as (r' & E4 & E5);
    auto using lin_comb_poly_in.
  exists x, r'. split; [exact E1|]. split; [exact E4|].
  intros mo Hmo. rewrite <- (z0_same x mo Hmo), (E3 mo), (E5 mo). auto.
Qed.

Lemma c09_to m n g : Grassmannian m n = Ok g -> 1 <= m ->
  (forall a, poly_in (in_box m (n - m)) a -> (forall mo, In VQ mo -> coef a mo = 0%Qc) ->
     exists x r, qtoS g a = Ok x /\ toS g a = Ok r /\ same_q_free_part x r).
Proof.
  intros Hg Hm a Ha Hq. apply gr_inv in Hg. destruct Hg as (_ & Hk & ->).
  assert (Fa := q_free_z0 a Hq).
  destruct (c09_toS m (n - m) Hm Hk a Ha) as (x & r & E1 & E2 & E3).
  assert (Ha' : poly_in (in_box m (n - m)) (psubst z0 a))
    by (apply poly_in_iff; apply poly_in_iff in Ha; eapply supp_peq; [symmetry; exact Fa|]; auto).
  destruct (prod_peq_arg (sysA m (n - m) Hm Hk false) _ a (pS []) (pS []) r Fa (reflexivity _)) as (r' & E4 & E5);
    auto using lin_comb_poly_in.
  { apply lin_comb_pS, in_box_nil; lia. }
  exists x, r'. split; [exact E1|]. split; [exact E4|].
  intros mo Hmo. rewrite <- (z0_same x mo Hmo), (E3 mo), (E5 mo). auto.
Qed.

Lemma c09_pieri m n g : Grassmannian m n = Ok g -> 1 <= m ->
  (forall i lam, in_box m (n - m) lam -> 1 <= i <= n - m ->
     exists x r, qpieri g i (pS lam) = Ok x /\ pieri g i (pS lam) = Ok r /\ same_q_free_part x r).
Proof.
  intros Hg Hm i lam Hl Hi. apply gr_inv in Hg. destruct Hg as (_ & Hk & ->).
  assert (Hp := proj2 (lin_comb_iff _ (pS lam)) (sys_lq_pS lam Hl)). 
  assert (Hq := proj1 (lin_comb_iff _ _) Hp).
  destruct (pi_lc m (n - m) Hm Hk true i (pS lam) (IA_dom _ true i Hi) Hq) as (x & E1 & P1).
  destruct (pi_lc m (n - m) Hm Hk false i (pS lam) (IA_dom _ false i Hi) Hq) as (r & E2 & P2).
  exists x, r. split; [exact E1|]. split; [exact E2|].
  intros mo Hmo. rewrite <- (z0_same x mo Hmo).
  assert (E : peq (psubst z0 x) r).
  { rewrite P1, P2. rewrite (ext_pS _ i lam), (ext_pS _ i lam). apply P_q0; auto. }
  apply E.
Qed.

Lemma c10_mult m n g lam mu : Grassmannian m n = Ok g -> 1 <= m ->
  in_box m (n - m) lam -> in_box m (n - m) mu ->
  (exists r, mult g (pS lam) (pS mu) = Ok r /\ homogeneous (degree_q g) (size lam + size mu) r /\ integral r) /\
  (exists r, qmult g (pS lam) (pS mu) = Ok r /\ homogeneous (degree_q g) (size lam + size mu) r /\ integral r).
Proof.
  intros Hg Hm Hl Hmu. apply gr_inv in Hg. destruct Hg as (_ & Hk & ->).
  assert (G : forall qq, exists r, prod TA (piA m (n - m) qq) (n - m) (giam_fuel (gA m (n - m))) (pS lam) (pS mu) = Ok r /\
     homogeneous (degree_q (gA m (n - m))) (size lam + size mu) r /\ integral r).
  { intros qq. destruct (api_prod (sysA m (n - m) Hm Hk qq) (pS lam) (pS mu)) as (r & E & Pr & _);
      auto using lin_comb_poly_in, lin_comb_pS.
    destruct (M_hom m (n - m) Hm Hk qq lam mu Hl Hmu) as [H1 H2].
    exists r. split; auto. split.
    - intros mo Hmo. rewrite (Pr mo) in Hmo. destruct (H1 mo Hmo) as (e & x & Hp & _ & Hd).
      exists e, x. split; auto.
    - intros mo. rewrite (Pr mo). apply H2. }
  split; [apply (G false) | apply (G true)].
Qed.

Lemma c10_pieri m n g i lam : Grassmannian m n = Ok g -> 1 <= m ->
  in_box m (n - m) lam -> 1 <= i <= n - m ->
  (exists r, pieri g i (pS lam) = Ok r /\ homogeneous (degree_q g) (size lam + i) r /\ integral r) /\
  (exists r, qpieri g i (pS lam) = Ok r /\ homogeneous (degree_q g) (size lam + i) r /\ integral r).
Proof.
  intros Hg Hm Hl Hi. apply gr_inv in Hg. destruct Hg as (_ & Hk & ->).
  assert (G : forall qq, exists r, apply_lc (on_part (piA m (n - m) qq i)) (pS lam) = Ok r /\
     homogeneous (degree_q (gA m (n - m))) (size lam + i) r /\ integral r).
  { intros qq. pose proof (IA_dom _ qq i Hi) as Hd.
    destruct (pi_lc m (n - m) Hm Hk qq i (pS lam) Hd (sys_lq_pS lam Hl)) as (r & E & Pr).
    assert (Pr' : peq r (P (piA m (n - m) qq) i lam)) by (rewrite Pr; apply ext_pS).
    exists r. split; auto. split.
    - intros mo Hmo. rewrite (Pr' mo) in Hmo.
      destruct (P_deg m (n - m) Hm Hk qq i lam Hd Hl mo Hmo) as (e & x & Hp & Hs).
      exists e, x. split; auto. change (degree_q (gA m (n - m))) with (m + (n - m)). lia.
    - intros mo. rewrite (Pr' mo). apply (P_int m (n - m) Hm Hk qq i lam Hd Hl). }
  split; [apply (G false) | apply (G true)].
Qed.

Lemma point_dual m k : 1 <= m -> 0 <= k -> point_class (gA m k) = dualA m k [].
Proof.
  intros Hm Hk. rewrite dualA_nil. unfold point_class, gA. cbn [g_type g_k g_n].
  replace (m + k - k) with m by lia. destruct (0 <? k) eqn:E.
  - symmetry. apply part_clip_pos. apply Forall_forall. intros x Hx. apply repeat_spec in Hx. lia.
  - replace k with 0 by lia. rewrite part_clip_repz. auto.
Qed.

Lemma c11 m n g lam mu : Grassmannian m n = Ok g -> 1 <= m ->
  in_box m (n - m) lam -> in_box m (n - m) mu ->
  exists r, mult g (pS lam) (pS mu) = Ok r /\
    (complementary m (n - m) lam mu -> coef r [vS (point_class g)] = 1%Qc) /\
    (~ complementary m (n - m) lam mu -> coef r [vS (point_class g)] = 0%Qc).
Proof.
  intros Hg Hm Hl Hmu. apply gr_inv in Hg. destruct Hg as (_ & Hk & ->).
  destruct (api_prod (sysA m (n - m) Hm Hk false) (pS lam) (pS mu)) as (r & E & Pr & _);
      auto using lin_comb_poly_in, lin_comb_pS.
  exists r. split; [exact E|]. rewrite point_dual, (Pr _) by auto.
  change (M TA (piA m (n - m) false) (n - m) (giam_fuel (gA m (n - m)))) with (MA m (n - m) false).
  rewrite (M_dual m (n - m) Hm Hk lam mu Hl Hmu).
  destruct (complement_dec m (n - m) lam mu) as [D|D]; rewrite dualA_compl in D by auto; tauto.
Qed.

Lemma c01 m n g i lam : Grassmannian m n = Ok g -> 1 <= m -> in_box m (n - m) lam -> 0 <= i ->
  exists p, pieri g i (pS lam) = Ok p /\
    is_sum_of p (fun d mu => d = O /\ in_box m (n - m) mu /\
                             adds_horizontal_strip lam mu /\ size mu = size lam + i).
Proof. intros Hg Hm Hl Hi. apply gr_inv in Hg. destruct Hg as (_ & Hk & ->). apply pieriA_sum; auto. Qed.

Lemma c02 m n g i lam : Grassmannian m n = Ok g -> 1 <= m -> in_box m (n - m) lam -> 1 <= i <= n - m ->
  exists p, qpieri g i (pS lam) = Ok p /\
    is_sum_of p (fun d mu => in_box m (n - m) mu /\
      ((d = 0%nat /\ adds_horizontal_strip lam mu /\ size mu = size lam + i) \/
       (d = 1%nat /\ bertram m lam mu /\ size mu = size lam + i - n))).
Proof.
  intros Hg Hm Hl Hi. apply gr_inv in Hg. destruct Hg as (_ & Hk & ->).
  destruct (qpieriA_sum m (n - m) Hm Hk i lam Hl Hi) as (p & E & S). exists p. split; auto.
  eapply is_sum_iff; [|exact S]. intros d mu. cbv beta.
  split; intros (H1 & [(H2 & H3 & H4)|(H2 & H3 & H4)]); split; auto;
    solve [left; split; [auto|]; split; [auto|lia] | right; split; [auto|]; split; [auto|lia]].
Qed.

Lemma c03 m n g c : Grassmannian m n = Ok g -> 1 <= m -> lin_comb (in_box m (n - m)) c ->
  (forall i j, 0 <= i -> 0 <= j ->
     exists x y x' y', pieri g i c = Ok x /\ pieri g j x = Ok y /\
       pieri g j c = Ok x' /\ pieri g i x' = Ok y' /\ peq y y') /\
  (forall i j, 1 <= i <= n - m -> 1 <= j <= n - m ->
     exists x y x' y', qpieri g i c = Ok x /\ qpieri g j x = Ok y /\
       qpieri g j c = Ok x' /\ qpieri g i x' = Ok y' /\ peq y y').
Proof.
  intros Hg Hm Hc. apply gr_inv in Hg. destruct Hg as (_ & Hk & ->). apply lin_comb_iff in Hc.
  split; intros i j Hi Hj; [apply (pi_comm m (n - m) Hm Hk false)|apply (pi_comm m (n - m) Hm Hk true)]; auto.
Qed.

Lemma c04 m n g lam : Grassmannian m n = Ok g -> 1 <= m -> in_box m (n - m) lam ->
  (exists e r, giambelli g (pS lam) = Ok e /\
     poly_in (fun l => exists i, 1 <= i <= n - m /\ l = [i]) e /\
     act g e (pS []) = Ok r /\ peq r (pS lam)) /\
  (exists e r, qgiambelli g (pS lam) = Ok e /\
     poly_in (fun l => exists i, 1 <= i <= n - m /\ l = [i]) e /\
     qact g e (pS []) = Ok r /\ peq r (pS lam)).
Proof.
  intros Hg Hm Hl. apply gr_inv in Hg. destruct Hg as (_ & Hk & ->).
  split; [apply (c04_giam m (n - m) Hm Hk false)|apply (c04_giam m (n - m) Hm Hk true)]; auto.
Qed.

Lemma c43_api m n g i c : Grassmannian m n = Ok g -> 1 <= m -> 1 <= i <= n - m ->
  lin_comb (in_box m (n - m)) c ->
  (exists r r', mult g (pS [i]) c = Ok r /\ pieri g i c = Ok r' /\ peq r r') /\
  (exists r r', qmult g (pS [i]) c = Ok r /\ qpieri g i c = Ok r' /\ peq r r').
Proof.
  intros Hg Hm Hi Hc. apply gr_inv in Hg. destruct Hg as (_ & Hk & ->).
  split; [apply (c43 m (n - m) Hm Hk false)|apply (c43 m (n - m) Hm Hk true)]; auto.
Qed.
