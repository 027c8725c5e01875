(** Classes that act by permutations: a bijection of the classes, up to powers of
    [q], that commutes with the Pieri operators is the product with the image of [S[]]. *)

From Coq Require Import ZArith List Lia Bool Permutation QArith Qcanon Setoid Morphisms.
From Verif Require Import Py OrderFacts PyFacts ModelPart ModelQcalc ModelPoly ModelStr ModelGr Spec
  PolyFacts SuppFacts OpTheory Sys Sys2 SysMap SwapRing DualSys Seidel.
Import ListNotations.
Open Scope Z_scope.

Section S.
Context {t : gtype} {pi : Z -> list Z -> res poly} {V : list Z -> Prop} {I : Z -> Prop}
  {k : Z} {mu : list Z -> nat} {fuel : nat}.
Hypothesis H : pieri_sys t pi V I k mu fuel.
Notation MM := (M t pi k fuel).
Notation lq := (supp (linm V (eq VQ))).

Variables (T T' : list Z -> list Z) (a : list Z -> nat).
Hypothesis T_V : forall l, V l -> V (T l).
Hypothesis T'_V : forall l, V l -> V (T' l).
Hypothesis T_T' : forall l, V l -> T (T' l) = l.
Hypothesis T'_T : forall l, V l -> T' (T l) = l.
Hypothesis a_nil : a [] = O.
Hypothesis HE : forall i l nu, I i -> V l -> V nu ->
  (forall d e, (a l + e = d + a nu)%nat -> coef (P pi i l) (qS d nu) = coef (P pi i (T l)) (qS e (T nu))) /\
  (forall d, (d + a nu < a l)%nat -> coef (P pi i l) (qS d nu) = 0%Qc) /\
  (forall e, (a l + e < a nu)%nat -> coef (P pi i (T l)) (qS e (T nu)) = 0%Qc).

Definition FT (l : list Z) : poly := pmul (pmono (repeat VQ (a l))) (pS (T l)).
Notation w := (psubst (gmap FT)).

Lemma FT_lq l : V l -> lq (FT l).
Proof. intros Hl. apply (lin_qmul V (eq VQ)); [apply Forall_repeat_VQ|]. apply sys_lq_pS; auto. Qed.
Lemma pmono_q_pS d l : peq (pmul (pmono (repeat VQ d)) (pS l)) (pmono (qS d l)).
Proof. rewrite <- (pmono_app (repeat VQ d) [vS l]). apply pmono_perm. unfold qS. symmetry. apply Permutation_cons_append. Qed.

Lemma FT_coef nu : V nu -> forall x, lq x -> forall s, coef (w x) (qS s (T nu)) = if (a nu <=? s)%nat then coef x (qS (s - a nu) nu) else 0%Qc.
Proof.
  intros Hn.
  apply (lin_ind V (eq VQ) (fun x => forall s, coef (w x) (qS s (T nu)) = if (a nu <=? s)%nat then coef x (qS (s - a nu) nu) else 0%Qc)).
  - intros p r E Hp s. rewrite <- (E _), <- Hp. assert (E' : peq (w p) (w r)) by (rewrite E; reflexivity). symmetry. apply E'.
  - intros s. destruct (a nu <=? s)%nat; reflexivity.
  - intros qm l c p Hl Hq Hp IH s.
    assert (EQ : exists d, qm = repeat VQ d).
    { exists (length qm). clear -Hq. induction Hq; [reflexivity|]. cbn. congruence. }
    destruct EQ as [d ->].
    assert (E0 : peq (w (padd (pscale c (pmul (pmono (repeat VQ d)) (pS l))) p)) (padd (pscale c (pmono (qS (d + a l) (T l)))) (w p))).
    { rewrite psubst_padd, psubst_pscale, psubst_pmul, gw_qm, gw_pS by auto. unfold FT. rewrite pmono_q_pS, pmono_qS_add. reflexivity. }
    rewrite (E0 _), coef_padd, IH, coef_pscale, pmono_coef.
    assert (Hinj : T l = T nu -> l = nu) by (intros E; rewrite <- (T'_T l Hl), E; auto).
    destruct (Nat.leb_spec (a nu) s) as [Hbt|Hbt].
    + rewrite coef_padd, coef_pscale, (pmono_q_pS _ _ _), pmono_coef. f_equal. f_equal.
      assert (HB : mono_eqb (qS (d + a l) (T l)) (qS s (T nu)) = mono_eqb (qS d l) (qS (s - a nu) nu)); [|rewrite HB; reflexivity].
      apply eq_true_iff_eq. rewrite !mono_qS. split.
      * intros [<- E]. apply Hinj in E. subst l. split; auto. lia.
      * intros [-> ->]. split; auto. lia.
    + destruct (mono_eqb (qS (d + a l) (T l)) (qS s (T nu))) eqn:HB; [|ring]. exfalso. apply mono_qS in HB. destruct HB as [<- E].
      apply Hinj in E. subst l. lia.
Qed.

Lemma FT_ext i l : I i -> V l -> peq (w (P pi i l)) (ext pi i (FT l)).
Proof.
  intros Hi Hl. assert (L1 : lq (P pi i l)) by (apply (ps_lin _ _ _ _ _ _ _ H); auto).
  assert (L2 : lq (P pi i (T l))) by (apply (ps_lin _ _ _ _ _ _ _ H); auto).
  assert (E : peq (ext pi i (FT l)) (pmul (pmono (repeat VQ (a l))) (P pi i (T l)))).
  { unfold FT. rewrite (ext_qmul pi (eq VQ) eqVQ_isqv) by apply Forall_repeat_VQ. rewrite ext_pS. reflexivity. }
  apply (lin_peq V).
  - apply (gw_lq (V1 := V) (V2 := V)); auto using FT_lq.
  - eapply supp_peq; [symmetry; exact E|]. apply (lin_qmul V (eq VQ)); auto. apply Forall_repeat_VQ.
  - intros s nu Hn. rewrite (E _), coef_qmul. rewrite <- (T_T' nu Hn). pose proof (T'_V nu Hn) as Hn'. set (v := T' nu) in *.
    rewrite FT_coef by auto. destruct (HE i l v Hi Hl Hn') as (A & B & C).
    destruct (Nat.leb_spec (a v) s), (Nat.leb_spec (a l) s).
    + apply A. lia.
    + apply B. lia.
    + symmetry. apply C. lia.
    + reflexivity.
Qed.

Lemma FT_main l : V l -> peq (FT l) (MM (pS l) (FT [])).
Proof.
  assert (V0 : V []) by apply (ps_nil _ _ _ _ _ _ _ H). pose proof (FT_lq [] V0) as Hb.
  assert (G : forall n l, (mu l < n)%nat -> V l -> peq (FT l) (MM (pS l) (FT []))).
  { induction n as [|n IH]; intros l' Hn Hl; [lia|].
    destruct (list_eq_dec Z.eq_dec l' []) as [->|Hne].
    - rewrite (sys_unit H _ Hb). reflexivity.
    - destruct (sys_rec H l' (FT []) Hl Hb Hne) as (i & l0 & A1 & A2 & A3 & A4 & A5).
      assert (Vl0 : V l0) by apply A3.
      assert (K : forall p, supp (linm (below V mu l') (eq VQ)) p -> peq (MM p (FT [])) (w p)).
      { assert (Hup : forall p, supp (linm (below V mu l') (eq VQ)) p -> lq p).
        { intros p. apply supp_impl. intros m (u & v & A & B & C). exists u, v. unfold below in *. tauto. }
        apply (lin_ind (below V mu l') (eq VQ)).
        - intros p r E Hp. rewrite <- (M_peq t pi k fuel _ _ _ _ E (reflexivity (FT []))), Hp, E. reflexivity.
        - apply (sys_zero_l (V := V)); auto.
        - intros qm x c p Hx Hq Hp IHp. apply Hup in Hp. assert (Vx : V x) by apply Hx.
          assert (Lx : lq (pS x)) by (apply sys_lq_pS; auto).
          assert (Lq : lq (pmul (pmono qm) (pS x))) by (apply (lin_qmul V (eq VQ)); auto).
          rewrite (sys_add_l H), (sys_scale_l H), (sys_q_l H); auto using (@sys_lq_vp V), (@supp_pscale (linm V (eq VQ))).
          rewrite IHp, psubst_padd, psubst_pscale, psubst_pmul, gw_qm, gw_pS by auto.
          rewrite (IH x) by (auto; destruct Hx; lia). reflexivity. }
      rewrite A5, (K _ A4).
      rewrite <- (ext_proper pi i _ _ (IH l0 ltac:(destruct A3; lia) Vl0)).
      rewrite psubst_psub, gw_pS, <- FT_ext by auto. ring. }
  intros Hl. apply (G (S (mu l))); auto.
Qed.

(** the product with the image of [S[]] *)
Lemma FT_mult l : V l -> peq (MM (pS (T [])) (pS l)) (pmono (qS (a l) (T l))).
Proof.
  intros Hl. assert (V0 : V []) by apply (ps_nil _ _ _ _ _ _ _ H).
  rewrite (sys_comm H) by (apply sys_lq_pS; auto). rewrite <- (pmono_q_pS (a l) (T l)). change (pmul (pmono (repeat VQ (a l))) (pS (T l))) with (FT l).
  rewrite (FT_main l Hl). apply M_peq; [reflexivity|]. unfold FT. rewrite a_nil. exact (pmono_q_pS 0 (T [])).
Qed.
(** permutes the structure constants *)
Lemma FT_sym lam m nu : V lam -> V m -> V nu ->
  (forall d e, (a lam + e = d + a nu)%nat -> coef (MM (pS lam) (pS m)) (qS d nu) = coef (MM (pS (T lam)) (pS m)) (qS e (T nu))) /\
  (forall d, (d + a nu < a lam)%nat -> coef (MM (pS lam) (pS m)) (qS d nu) = 0%Qc) /\
  (forall e, (a lam + e < a nu)%nat -> coef (MM (pS (T lam)) (pS m)) (qS e (T nu)) = 0%Qc).
Proof.
  intros Hl Hm Hn. assert (V0 : V []) by apply (ps_nil _ _ _ _ _ _ _ H).
  assert (L1 : lq (pS lam)) by (apply sys_lq_pS; auto). assert (L2 : lq (pS m)) by (apply sys_lq_pS; auto).
  assert (L3 : lq (pS (T []))) by (apply sys_lq_pS; auto). assert (L4 : lq (pS (T lam))) by (apply sys_lq_pS; auto).
  assert (LX := sys_lin H _ _ (sys_lq_vp _ L1) L2).
  assert (E1 : peq (MM (pS (T [])) (MM (pS lam) (pS m))) (pmul (pmono (repeat VQ (a lam))) (MM (pS (T lam)) (pS m)))).
  { rewrite <- (sys_assoc H) by auto. rewrite (M_peq t pi k fuel _ _ _ _ (FT_mult lam Hl) (reflexivity (pS m))).
    rewrite <- (sys_q_l H); auto using Forall_repeat_VQ. apply M_peq; [|reflexivity]. symmetry. apply pmono_q_pS. }
  assert (E2 : forall x, lq x -> peq (MM (pS (T [])) x) (w x)).
  { apply (lin_ind V (eq VQ)).
    - intros p r E Hp. rewrite <- (M_peq t pi k fuel _ _ _ _ (reflexivity (pS (T []))) E), Hp, E. reflexivity.
    - rewrite (sys_comm H) by (auto; apply supp_zero). apply (sys_zero_l (V := V)); auto.
    - intros qm x c p Hx Hq Hp IHp. rewrite sys_add_r, sys_scale_r, (sys_q_r H) by (auto; apply sys_lq_pS; auto).
      rewrite IHp, psubst_padd, psubst_pscale, psubst_pmul, gw_qm, gw_pS, FT_mult by auto. unfold FT. rewrite pmono_q_pS. reflexivity. }
  assert (HC : forall s, (if (a lam <=? s)%nat then coef (MM (pS (T lam)) (pS m)) (qS (s - a lam) (T nu)) else 0%Qc) =
    (if (a nu <=? s)%nat then coef (MM (pS lam) (pS m)) (qS (s - a nu) nu) else 0%Qc)).
  { intros s. rewrite <- (FT_coef nu Hn _ LX), <- coef_qmul, <- (E1 _). apply (E2 _ LX). }
  split; [|split].
  - intros d e E. specialize (HC (d + a nu)%nat). destruct (Nat.leb_spec (a lam) (d + a nu)), (Nat.leb_spec (a nu) (d + a nu)); try lia.
    replace (d + a nu - a lam)%nat with e in HC by lia. replace (d + a nu - a nu)%nat with d in HC by lia. auto.
  - intros d E. specialize (HC (d + a nu)%nat). destruct (Nat.leb_spec (a lam) (d + a nu)), (Nat.leb_spec (a nu) (d + a nu)); try lia.
    replace (d + a nu - a nu)%nat with d in HC by lia. auto.
  - intros e E. specialize (HC (a lam + e)%nat). destruct (Nat.leb_spec (a lam) (a lam + e)), (Nat.leb_spec (a nu) (a lam + e)); try lia.
    replace (a lam + e - a lam)%nat with e in HC by lia. auto.
Qed.
End S.
