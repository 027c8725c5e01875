(** Facts about ModelExpr.v. *)

From Coq Require Import ZArith List Lia Bool Permutation QArith Qcanon Setoid Morphisms.
From Verif Require Import Py OrderFacts ModelPart ModelQcalc ModelPoly ModelExpr Spec
  PolyFacts SuppFacts PyFacts.
Import ListNotations.
Open Scope Z_scope.

Section TreeInd.
Variable P : tree -> Prop.
Hypothesis HN : forall c, P (TNum c).
Hypothesis HS : forall v, P (TSym v).
Hypothesis HA : forall l, Forall P l -> P (TAdd l).
Hypothesis HM : forall l, Forall P l -> P (TMul l).
Hypothesis HP : forall b n, P b -> P (TPow b n).
Fixpoint tree_ind2 (e : tree) : P e :=
  match e with
  | TNum c => HN c
  | TSym v => HS v
  | TAdd l => HA l ((fix go l := match l return Forall P l with [] => Forall_nil _ | x :: t => Forall_cons _ (tree_ind2 x) (go t) end) l)
  | TMul l => HM l ((fix go l := match l return Forall P l with [] => Forall_nil _ | x :: t => Forall_cons _ (tree_ind2 x) (go t) end) l)
  | TPow b n => HP b n (tree_ind2 b)
  end.
End TreeInd.

(** variables of a tree *)
Fixpoint tvars (e : tree) : list var :=
  match e with
  | TNum _ => []
  | TSym v => [v]
  | TAdd l => flat_map tvars l
  | TMul l => flat_map tvars l
  | TPow b _ => tvars b
  end.

Definition vars_in (l : list var) : mono -> Prop := Forall (fun v => In v l).
Lemma vars_in_inv l : minv (vars_in l).
Proof. intros a b HP. unfold vars_in. rewrite !Forall_forall. intros H v Hv. apply H. apply (Permutation_in v (Permutation_sym HP)); auto. Qed.
Lemma vars_in_incl a b m : incl a b -> vars_in a m -> vars_in b m.
Proof. intros H. unfold vars_in. rewrite !Forall_forall. auto. Qed.

Lemma supp_pone R : minv R -> R [] -> supp R pone.
Proof. intros HR H. apply (supp_pmono R []); auto. Qed.
Lemma supp_pconst R c : minv R -> R [] -> supp R (pconst c).
Proof. intros HR H. apply rawsupp_supp; auto. intros m d [E|[]]. inversion E; subst; auto. Qed.

Lemma expand_vars e : supp (vars_in (tvars e)) (expand e).
Proof.
  induction e as [c|v|l IH|l IH|b n IH] using tree_ind2; cbn [expand tvars].
  - apply supp_pconst; [apply vars_in_inv|constructor].
  - apply supp_pvar; [apply vars_in_inv|]. repeat constructor.
  - induction IH as [|x l Hx _ IHl]; cbn [map psum fold_right flat_map]; [apply supp_zero|].
    apply supp_padd.
    + eapply supp_impl; [|exact Hx]. intros m. apply vars_in_incl. apply incl_appl, incl_refl.
    + eapply supp_impl; [|exact IHl]. intros m. apply vars_in_incl. apply incl_appr, incl_refl.
  - induction IH as [|x l Hx _ IHl]; cbn [map pprod fold_right flat_map]; [apply supp_pone; [apply vars_in_inv|constructor]|].
    eapply supp_pmul; [apply vars_in_inv| |exact Hx|exact IHl].
    intros a c Ha Hc. apply Forall_app. split.
    + eapply vars_in_incl; [|exact Ha]. apply incl_appl, incl_refl.
    + eapply vars_in_incl; [|exact Hc]. apply incl_appr, incl_refl.
  - induction n as [|n IHn]; cbn [ppow]; [apply supp_pone; [apply vars_in_inv|constructor]|].
    eapply supp_pmul; [apply vars_in_inv| |exact IH|exact IHn]. intros a c Ha Hc. apply Forall_app; auto.
Qed.

Definition val (f : schur -> res poly) (v : var) : poly :=
  match image f v with Ok p => p | Err _ => pzero end.
Definition ok_on (f : schur -> res poly) (l : list var) : Prop := forall v, In v l -> exists x, image f v = Ok x.

Lemma psubst_psum s l : peq (psubst s (psum l)) (psum (map (psubst s) l)).
Proof. induction l as [|x l IH]; cbn [psum fold_right map]; [reflexivity|]. rewrite psubst_padd. fold (psum l). rewrite IH. reflexivity. Qed.
Lemma psubst_pprod s l : peq (psubst s (pprod l)) (pprod (map (psubst s) l)).
Proof. induction l as [|x l IH]; cbn [pprod fold_right map]; [apply psubst_pone|]. rewrite psubst_pmul. fold (pprod l). rewrite IH. reflexivity. Qed.
Lemma psubst_ppow s p n : peq (psubst s (ppow p n)) (ppow (psubst s p) n).
Proof. induction n as [|n IH]; cbn [ppow]; [apply psubst_pone|]. rewrite psubst_pmul, IH. reflexivity. Qed.
Global Instance ppow_proper : Proper (peq ==> eq ==> peq) ppow.
Proof. intros p r H n n' <-. induction n as [|n IH]; cbn [ppow]; [reflexivity|]. rewrite IH. apply pmul_proper; [exact H|reflexivity]. Qed.

Lemma tree_apply_ok f e : ok_on f (tvars e) ->
  exists r, tree_apply f e = Ok r /\ peq r (psubst (val f) (expand e)).
Proof.
  induction e as [c|v|l IH|l IH|b n IH] using tree_ind2; cbn [tree_apply tvars expand]; intros H.
  - exists (pconst c). split; auto. rewrite psubst_pconst. reflexivity.
  - destruct (H v) as [x E]; [left; auto|]. exists x. split; auto. rewrite psubst_pvar. unfold val. rewrite E. reflexivity.
  - assert (G : exists xs, mapM (tree_apply f) l = Ok xs /\ peq (psum xs) (psubst (val f) (psum (map expand l)))).
    { induction IH as [|x l Hx _ IHl]; cbn [mapM map psum fold_right].
      - exists []. split; reflexivity.
      - destruct Hx as (r & E & Er). { intros v Hv. apply H. apply in_or_app; auto. }
        destruct IHl as (xs & Es & Exs). { intros v Hv. apply H. apply in_or_app; auto. }
        rewrite E, Es. cbn [bind]. exists (r :: xs). split; auto. cbn [psum fold_right]. fold (psum xs) (psum (map expand l)).
        rewrite psubst_padd, Er, Exs. reflexivity. }
    destruct G as (xs & E & Ex). rewrite E. cbn [bind]. exists (psum xs). split; auto.
  - assert (G : exists xs, mapM (tree_apply f) l = Ok xs /\ peq (pprod xs) (psubst (val f) (pprod (map expand l)))).
    { induction IH as [|x l Hx _ IHl]; cbn [mapM map pprod fold_right].
      - exists []. split; [reflexivity|]. cbn [pprod fold_right]. rewrite psubst_pone. reflexivity.
      - destruct Hx as (r & E & Er). { intros v Hv. apply H. apply in_or_app; auto. }
        destruct IHl as (xs & Es & Exs). { intros v Hv. apply H. apply in_or_app; auto. }
        rewrite E, Es. cbn [bind]. exists (r :: xs). split; auto. cbn [pprod fold_right]. fold (pprod xs) (pprod (map expand l)).
        rewrite psubst_pmul, Er, Exs. reflexivity. }
    destruct G as (xs & E & Ex). rewrite E. cbn [bind]. exists (pprod xs). split; auto.
  - destruct (IH H) as (r & E & Er). rewrite E. cbn [bind]. exists (ppow r n). split; auto. rewrite psubst_ppow, Er. reflexivity.
Qed.
Lemma mapM_Ok_in {A B} (f : A -> res B) l ys x : mapM f l = Ok ys -> In x l -> exists y, f x = Ok y.
Proof.
  revert ys. induction l as [|a l IH]; intros ys H Hin; [destruct Hin|]. cbn [mapM] in H.
  destruct (f a) as [y|] eqn:E; [|discriminate]. destruct (mapM f l) as [zs|] eqn:E2; [|discriminate].
  destruct Hin as [<-|Hin]; eauto.
Qed.
Lemma tree_apply_defined f e r : tree_apply f e = Ok r -> ok_on f (tvars e).
Proof.
  revert r. induction e as [c|v|l IH|l IH|b n IH] using tree_ind2; cbn [tree_apply tvars]; intros r H w Hw.
  - destruct Hw.
  - destruct Hw as [<-|[]]. eauto.
  - destruct (mapM (tree_apply f) l) as [xs|] eqn:E; [|discriminate]. apply in_flat_map in Hw. destruct Hw as (x & Hx & Hv).
    rewrite Forall_forall in IH. destruct (mapM_Ok_in _ _ _ _ E Hx) as [y Ey]. eapply IH; eauto.
  - destruct (mapM (tree_apply f) l) as [xs|] eqn:E; [|discriminate]. apply in_flat_map in Hw. destruct Hw as (x & Hx & Hv).
    rewrite Forall_forall in IH. destruct (mapM_Ok_in _ _ _ _ E Hx) as [y Ey]. eapply IH; eauto.
  - destruct (tree_apply f b) as [x|] eqn:E; [|discriminate]. eapply IH; eauto.
Qed.

Lemma apply_lc_val f p (l : list var) : ok_on f l -> supp (vars_in l) p ->
  exists r, apply_lc f p = Ok r /\ peq r (psubst (val f) p).
Proof.
  intros H Hs. apply apply_lc_ok. intros m c v Hin Hv. apply supp_rawnorm in Hs. specialize (Hs m c Hin).
  unfold vars_in in Hs. rewrite Forall_forall in Hs. destruct (H v (Hs v Hv)) as [x E].
  exists x. split; auto. unfold val. rewrite E. reflexivity.
Qed.

(** apply on a tree is apply on its expansion *)
Lemma tree_apply_lc f e r : tree_apply f e = Ok r ->
  exists r', apply_lc f (expand e) = Ok r' /\ peq r r'.
Proof.
  intros H. pose proof (tree_apply_defined f e r H) as Hd.
  destruct (tree_apply_ok f e Hd) as (r0 & E & Er). rewrite H in E. inversion E; subst r0.
  destruct (apply_lc_val f (expand e) (tvars e) Hd (expand_vars e)) as (r' & E' & Er'). exists r'. split; auto.
  rewrite Er, Er'. reflexivity.
Qed.
Lemma tree_apply_bracket f e1 e2 r1 r2 : tree_apply f e1 = Ok r1 -> tree_apply f e2 = Ok r2 ->
  peq (expand e1) (expand e2) -> peq r1 r2.
Proof.
  intros H1 H2 HE. destruct (tree_apply_lc _ _ _ H1) as (a & Ea & Pa). destruct (tree_apply_lc _ _ _ H2) as (b & Eb & Pb).
  rewrite (apply_lc_peq f _ _ HE) in Ea. rewrite Ea in Eb. inversion Eb; subst. rewrite Pa, Pb. reflexivity.
Qed.

(** apply_lc: the variables of a polynomial *)
Definition pvars (p : poly) : list var := flat_map fst (pnorm p).
Lemma supp_pvars p : supp (vars_in (pvars p)) p.
Proof.
  apply supp_norm_iff; [apply vars_in_inv|]. intros m c Hin. apply Forall_forall. intros v Hv.
  unfold pvars. apply in_flat_map. exists (m, c). auto.
Qed.
Lemma mapply_defined f m r v : mapply f m = Ok r -> In v m -> exists x, image f v = Ok x.
Proof.
  revert r. induction m as [|w m IH]; intros r H Hv; [destruct Hv|]. cbn [mapply] in H.
  destruct (image f w) eqn:E; [|discriminate]. destruct (mapply f m) eqn:E2; [|discriminate].
  destruct Hv as [<-|Hv]; eauto.
Qed.
Lemma apply_lc_defined f p r : apply_lc f p = Ok r -> ok_on f (pvars p).
Proof.
  unfold apply_lc, pvars. generalize (pnorm p). intros l. revert r. induction l as [|[m c] l IH]; intros r H v Hv; [destruct Hv|].
  cbn [tapply] in H. destruct (mapply f m) eqn:E; [|discriminate]. destruct (tapply f l) eqn:E2; [|discriminate].
  cbn [flat_map fst] in Hv. apply in_app_or in Hv. destruct Hv; [eapply mapply_defined; eauto|eapply IH; eauto].
Qed.
Lemma apply_lc_val' f p r : apply_lc f p = Ok r -> peq r (psubst (val f) p).
Proof.
  intros H. destruct (apply_lc_val f p (pvars p) (apply_lc_defined f p r H) (supp_pvars p)) as (r' & E & Er).
  rewrite H in E. inversion E; subst. auto.
Qed.
Lemma ok_on_app f a b : ok_on f a -> ok_on f b -> ok_on f (a ++ b).
Proof. intros Ha Hb v Hv. apply in_app_or in Hv. destruct Hv; auto. Qed.

Lemma apply_add f a b x y : apply_lc f a = Ok x -> apply_lc f b = Ok y ->
  exists z, apply_lc f (padd a b) = Ok z /\ peq z (padd x y).
Proof.
  intros Hx Hy. destruct (apply_lc_val f (padd a b) (pvars a ++ pvars b)) as (z & E & Ez).
  - apply ok_on_app; eapply apply_lc_defined; eauto.
  - apply supp_padd.
    + eapply supp_impl; [|apply supp_pvars]. intros m. apply vars_in_incl. apply incl_appl, incl_refl.
    + eapply supp_impl; [|apply supp_pvars]. intros m. apply vars_in_incl. apply incl_appr, incl_refl.
  - exists z. split; auto. rewrite Ez, psubst_padd, (apply_lc_val' _ _ _ Hx), (apply_lc_val' _ _ _ Hy). reflexivity.
Qed.
Lemma apply_mul f a b x y : apply_lc f a = Ok x -> apply_lc f b = Ok y ->
  exists z, apply_lc f (pmul a b) = Ok z /\ peq z (pmul x y).
Proof.
  intros Hx Hy. destruct (apply_lc_val f (pmul a b) (pvars a ++ pvars b)) as (z & E & Ez).
  - apply ok_on_app; eapply apply_lc_defined; eauto.
  - eapply supp_pmul; [apply vars_in_inv| |apply supp_pvars|apply supp_pvars].
    intros m m' Ha Hc. apply Forall_app. split.
    + eapply vars_in_incl; [|exact Ha]. apply incl_appl, incl_refl.
    + eapply vars_in_incl; [|exact Hc]. apply incl_appr, incl_refl.
  - exists z. split; auto. rewrite Ez, psubst_pmul, (apply_lc_val' _ _ _ Hx), (apply_lc_val' _ _ _ Hy). reflexivity.
Qed.
Lemma apply_const f c : exists z, apply_lc f (pconst c) = Ok z /\ peq z (pconst c).
Proof.
  destruct (apply_lc_val f (pconst c) []) as (z & E & Ez).
  - intros v [].
  - apply supp_pconst; [apply vars_in_inv|constructor].
  - exists z. split; auto. rewrite Ez, psubst_pconst. reflexivity.
Qed.
Lemma apply_q f v : In v [VQ; VQ1; VQ2] -> exists z, apply_lc f (pvar v) = Ok z /\ peq z (pvar v).
Proof.
  intros Hv. destruct (apply_lc_val f (pvar v) [v]) as (z & E & Ez).
  - intros w [<-|[]]. destruct Hv as [<-|[<-|[<-|[]]]]; eexists; reflexivity.
  - apply supp_pvar; [apply vars_in_inv|]. repeat constructor.
  - exists z. split; auto. rewrite Ez, psubst_pvar. destruct Hv as [<-|[<-|[<-|[]]]]; reflexivity.
Qed.
Lemma apply_class f s x : f s = Ok x -> exists z, apply_lc f (pvar (VS s)) = Ok z /\ peq z x.
Proof.
  intros H. destruct (apply_lc_val f (pvar (VS s)) [VS s]) as (z & E & Ez).
  - intros w [<-|[]]. exists x. auto.
  - apply supp_pvar; [apply vars_in_inv|]. repeat constructor.
  - exists z. split; auto. rewrite Ez, psubst_pvar. unfold val. cbn [image]. rewrite H. reflexivity.
Qed.

(** ** is_valid *)
Definition deg1 (m : mono) : Prop := (length m <= 1)%nat.
Lemma deg1_inv : minv deg1.
Proof. intros a b HP. unfold deg1. rewrite (Permutation_length HP). auto. Qed.
Lemma supp_const_mul R e c : minv R -> supp R (expand e) -> supp R (pprod (map expand [TNum c; e])).
Proof.
  intros HR H. cbn [map pprod fold_right expand].
  eapply (supp_pmul (fun m => m = []) R); [exact HR| |apply supp_pconst; auto|].
  - intros a b -> Hb. exact Hb.
  - intros a b HP Ha. subst. apply Permutation_nil in HP. auto.
  - eapply (supp_pmul R (fun m => m = [])); [exact HR| |exact H|apply supp_pone; auto].
    + intros a b Ha ->. rewrite app_nil_r. auto.
    + intros a b HP Ha. subst. apply Permutation_nil in HP. auto.
Qed.
Lemma is_valid_deg1 e : is_valid e = true -> supp deg1 (expand e).
Proof.
  induction e as [c|v|l IH|l IH|b n IH] using tree_ind2; cbn [is_valid]; intros H.
  - apply supp_pconst; [apply deg1_inv|unfold deg1; simpl; lia].
  - apply supp_pvar; [apply deg1_inv|unfold deg1; simpl; lia].
  - cbn [expand]. induction IH as [|x l Hx _ IHl]; cbn [map psum fold_right]; [apply supp_zero|].
    cbn [forallb] in H. apply andb_true_iff in H. destruct H. apply supp_padd; auto.
  - apply andb_true_iff in H. destruct H as [H Hv]. apply andb_true_iff in H. destruct H as [H1 H2].
    apply Nat.eqb_eq in H1. apply Nat.eqb_eq in H2. destruct l as [|a [|b [|? ?]]]; try discriminate.
    inversion IH as [|? ? Ha IHb]; subst. inversion IHb as [|? ? Hb _]; subst.
    cbn [forallb andb] in Hv. rewrite !andb_true_iff, !orb_true_iff in Hv. destruct Hv as (Va & Vb & _).
    cbn [filter] in H1. destruct (isNumber a) eqn:Na, (isNumber b) eqn:Nb; try discriminate H1.
    + destruct a as [c| | | |]; try discriminate. apply (supp_const_mul deg1 b c deg1_inv). apply Hb. destruct Vb; auto. discriminate.
    + destruct b as [c| | | |]; try discriminate. destruct Va as [Va|Va]; [discriminate|].
      pose proof (supp_const_mul deg1 a c deg1_inv (Ha Va)) as G.
      eapply supp_peq; [|exact G]. cbn [expand map pprod fold_right]. ring.
  - apply andb_true_iff in H. destruct H as [H1 H2]. apply Nat.eqb_eq in H1. subst n. cbn [expand ppow].
    eapply supp_peq; [|apply (IH H2)]. ring.
Qed.

(** ** has_part_zero_padding *)
Lemma zero_padding_iff e : has_part_zero_padding e = true <->
  exists s, In (VS s) (tvars e) /\ schur_zero_padded s = true.
Proof.
  induction e as [c|v|l IH|l IH|b n IH] using tree_ind2; cbn [has_part_zero_padding tvars].
  - split; [discriminate|]. intros (s & [] & _).
  - destruct v as [s| | |].
    + split; [intros H; exists s; simpl; auto|]. intros (s' & [E|[]] & H). inversion E; subst; auto.
    + split; [discriminate|]. intros (s & [E|[]] & _). discriminate.
    + split; [discriminate|]. intros (s & [E|[]] & _). discriminate.
    + split; [discriminate|]. intros (s & [E|[]] & _). discriminate.
  - rewrite existsb_exists. rewrite Forall_forall in IH. split.
    + intros (x & Hx & H). apply (IH x Hx) in H. destruct H as (s & Hs & H). exists s. split; auto. apply in_flat_map. eauto.
    + intros (s & Hs & H). apply in_flat_map in Hs. destruct Hs as (x & Hx & Hs). exists x. split; auto. apply (IH x Hx). eauto.
  - rewrite existsb_exists. rewrite Forall_forall in IH. split.
    + intros (x & Hx & H). apply (IH x Hx) in H. destruct H as (s & Hs & H). exists s. split; auto. apply in_flat_map. eauto.
    + intros (s & Hs & H). apply in_flat_map in Hs. destruct Hs as (x & Hx & Hs). exists x. split; auto. apply (IH x Hx). eauto.
  - exact IH.
Qed.
