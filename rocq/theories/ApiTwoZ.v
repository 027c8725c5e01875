(** The lemmas behind C86 in PropsPair.v: products with two quantum parameters are never zero. *)

From Coq Require Import ZArith List Lia Bool Permutation QArith Qcanon Setoid Morphisms.
From Verif Require Import Py OrderFacts PyFacts ModelPart ModelQcalc ModelPoly ModelStr ModelGr Spec SpecRing SpecPieri SpecAct SpecPos SpecWeight SpecPair
  PolyFacts SuppFacts OpTheory PartFacts WSum Sys Sys2 RingD DualWordD TwoComm TwoRing ActLaws ApiAct PosFacts ApiWeight TwoDual TwoPair ApiTwo.
Import ListNotations.
Open Scope Z_scope.

(** the classes of a product, and a walk towards small classes *)
Definition q12b (v : var) : bool := match v with VQ1 | VQ2 => true | _ => false end.
Definition terms (r : res poly) : list (list Z) :=
  match r with
  | Ok p => flat_map (fun mc => match fst mc with VS (SP l) :: t => if forallb q12b t then [l] else [] | _ => [] end) (pnorm p)
  | Err _ => []
  end.
Fixpoint smallest (b : list Z) (ls : list (list Z)) : list Z :=
  match ls with [] => b | l :: t => smallest (if zsum l <? zsum b then l else b) t end.
Definition nxt (n : Z) (x : list Z) : list (list Z) := flat_map (fun i => terms (F1 n i x)) (ix n).
Fixpoint walk (n : Z) (fuel : nat) (x : list Z) : bool :=
  match fuel with
  | O => false
  | S f => match x with [] => true | _ => walk n f (smallest x (flat_map (nxt n) (nxt n x))) end
  end.
Lemma smallest_in b ls : smallest b ls = b \/ In (smallest b ls) ls.
Proof.
  revert b. induction ls as [|l t IH]; intros b; [left; reflexivity|]. cbn [smallest]. destruct (IH (if zsum l <? zsum b then l else b)) as [E|E].
  - rewrite E. destruct (zsum l <? zsum b); [right; left; reflexivity|left; reflexivity].
  - right; right; exact E.
Qed.
Lemma q12_perm t : forallb q12b t = true -> exists d1 d2, Permutation t (repeat VQ1 d1 ++ repeat VQ2 d2).
Proof.
  induction t as [|v t IH]; [exists O, O; constructor|]. cbn [forallb]. rewrite andb_true_iff. intros [Hv Ht]. destruct (IH Ht) as (d1 & d2 & HP).
  destruct v; try discriminate.
  - exists (S d1), d2. cbn [repeat app]. constructor. exact HP.
  - exists d1, (S d2). cbn [repeat]. rewrite <- Permutation_middle. constructor. exact HP.
Qed.
Lemma terms_ok p l : In l (terms (Ok p)) -> occurs12 p l.
Proof.
  intros H. cbn [terms] in H. apply in_flat_map in H. destruct H as ([mo c] & Hin & H). cbn [fst] in H.
  destruct mo as [|[[x|a b]| | |] t]; try contradiction. destruct (forallb q12b t) eqn:E; [|contradiction]. destruct H as [->|[]].
  destruct (q12_perm t E) as (d1 & d2 & HP). exists d1, d2. unfold q12S. rewrite <- (coef_perm p (vS l :: t) (vS l :: repeat VQ1 d1 ++ repeat VQ2 d2)) by (constructor; exact HP).
  rewrite <- coef_pnorm. change (vS l) with (VS (SP l)). rewrite (nf_coef_in _ _ _ (pnorm_nf p) Hin). destruct (pnorm_nf p) as [_ HF]. rewrite Forall_forall in HF. apply (HF _ Hin).
Qed.

Definition wk (n : Z) : bool := walk n 9 (dualD 1 n []).
Lemma wk_all : forallb wk [1; 2; 3; 4; 5; 6; 7] = true.
Proof. vm_cast_no_check (eq_refl true). Qed.

Section Two.
Variables (m N : Z) (g : gr).
Hypothesis Hg : OrthogonalGrassmannian m N = Ok g.
Hypothesis HN : Z.even N = true.
Hypothesis H16 : N <= 16.
Hypothesis Hm : 1 <= m.
Hypothesis Hk : m = N / 2 - 1.
Notation V := (class_OG m N).
Notation I := (index_even m N).
Notation L := (supp (linm V isqv)).
Notation qpi := (qpieri_fun g).
Notation du := (dualD 1 m).
Notation ch := (chain12 (qpieri g) I).

Lemma nxt_ok x y : V x -> In y (nxt m x) -> ch x y /\ V y.
Proof.
  intros Hx Hy. destruct (two_inv m N g Hg HN H16 Hm Hk) as (Eg & Hn & EV & HI). unfold nxt in Hy. apply in_flat_map in Hy. destruct Hy as (i & Hi & Hy).
  assert (Hi' : I i). { apply HI. unfold ix in Hi. destruct Hi as [<-|Hi]; [right; lia|]. apply in_zrange in Hi. left; lia. }
  change (F1 m i x) with (qpieri_fun (gD 1 m) i x) in Hy. rewrite <- Eg, (w_ok m N g Hg HN H16 Hm Hk i x Hi' Hx) in Hy. apply terms_ok in Hy.
  split; [eapply ch_one|eapply occ_V]; eauto.
Qed.
Lemma walk_ok f x : V x -> walk m f x = true -> ch x [].
Proof.
  revert x. induction f as [|f IH]; intros x Hx Hw; [discriminate|]. cbn [walk] in Hw. destruct x as [|a x]; [apply chain12_refl|]. set (y := a :: x) in *.
  set (z := smallest y (flat_map (nxt m) (nxt m y))) in *. assert (Hz : ch y z /\ V z).
  { unfold z. destruct (smallest_in y (flat_map (nxt m) (nxt m y))) as [->|Hin]; [split; [apply chain12_refl|auto]|].
    apply in_flat_map in Hin. destruct Hin as (u & Hu & Hin). destruct (nxt_ok y u Hx Hu) as [C1 V1]. destruct (nxt_ok u _ V1 Hin) as [C2 V2]. split; auto. eapply ch_trans; eauto. }
  destruct Hz as [C1 V1]. eapply ch_trans; [exact C1|]. apply IH; auto.
Qed.
Lemma ch_all x y : V x -> V y -> ch x y.
Proof.
  intros Hx Hy. destruct (two_inv m N g Hg HN H16 Hm Hk) as (_ & Hn & _ & _).
  assert (Hw : wk m = true).
  { assert (W := wk_all). rewrite forallb_forall in W. apply W. clear - Hn. cbn. lia. }
  assert (Hnil := w_nil m N g Hg HN H16 Hm Hk). assert (HV := w_V m N g Hg HN H16 Hm Hk). assert (HD := w_du m N g Hg HN H16 Hm Hk).
  eapply ch_trans; [|eapply ch_trans; [apply (walk_ok 9 (du [])); [apply HV; auto|exact Hw]|apply (ch_nil m N g Hg HN H16 Hm Hk); auto]].
  rewrite <- (HD x Hx) at 1. apply (ch_dual m N g Hg HN H16 Hm Hk); auto. apply (ch_nil m N g Hg HN H16 Hm Hk); auto.
Qed.

Theorem w_never : never_zero12 V (qmult g) (qpieri g) I.
Proof.
  split; [|intros; apply ch_all; auto]. intros lam mu Hl Hmu. assert (HV := w_V m N g Hg HN H16 Hm Hk).
  destruct (w_point m N g Hg HN H16 Hm Hk lam (pS mu) Hl (w_class m N mu Hmu)) as (r & Er & Lr & _). exists r. split; auto. intros Hz.
  assert (PP := c77 m N g Hg HN H16 Hm Hk).
  assert (G : forall y, ch mu y -> exists c qs, L c /\ positive_coefs c /\ Forall isqv qs /\ coef c (vS y :: qs) <> 0%Qc /\ exists z, qmult g (pS lam) c = Ok z /\ peq z pzero).
  { intros y H. induction H as [|y z i x H (c & qs & Lc & Pc & HQ & Hne & u & Eu & Pu) Hi Ex Hoc].
    - exists (pS mu), []. split; [apply (w_class m N); auto|]. split; [apply pos_pmono|]. split; [constructor|]. split; [|eauto].
      unfold pS, pvar. cbn [coef]. rewrite (proj2 (mono_eqb_perm _ _) (Permutation_refl _)). intros E1. apply (f_equal (fun c => Qnum (this c))) in E1. vm_compute in E1. discriminate.
    - assert (Vy := ch_V m N g Hg HN H16 Hm Hk mu y Hmu H). destruct (w_op m N g Hg HN H16 Hm Hk i y Hi Vy) as (x' & Ex' & Px). rewrite Ex in Ex'. inversion Ex'; subst x'.
      destruct Hoc as (d1 & d2 & Hoc). rewrite (Px _) in Hoc. unfold q12S in Hoc.
      pose proof (proj2 (lin_comb_qs_iff _ _) Lc) as Lc'.
      destruct (c77_special m N g i c Hg HN H16 Hm Hk Hi Lc') as (w & w' & Ew & Ew' & Pw). destruct (w_pi m N g Hg HN H16 Hm Hk i c w' Hi Lc Ew') as [Pe Le].
      assert (Lw : L w) by (eapply supp_peq; [symmetry; exact Pw|exact Le]). assert (Pwe : peq w (ext qpi i c)) by (rewrite Pw; exact Pe).
      exists w, ((repeat VQ1 d1 ++ repeat VQ2 d2) ++ qs). split; auto. split; [|split; [|split]].
      + eapply pos_peq; [symmetry; exact Pwe|]. apply (w_Pint m N g Hg HN H16 Hm Hk); auto.
      + apply Forall_app. split; auto. apply q12_isqv.
      + rewrite (Pwe _). eapply (w_step m N g Hg HN H16 Hm Hk); eauto.
      + destruct (w_point m N g Hg HN H16 Hm Hk lam w Hl Lw) as (t & Et & Lt & _). exists t. split; auto.
        assert (Ls : lin_comb_qs V (pS (special_class i))).
        { apply lin_comb_qs_iff, (w_class m N). destruct (two_inv m N g Hg HN H16 Hm Hk) as (_ & Hn & -> & HI). apply (T_special m Hn). apply HI; auto. }
        assert (Ll : lin_comb_qs V (pS lam)) by (apply lin_comb_qs_iff, (w_class m N); auto).
        assert (Lu : L u) by (eapply supp_peq; [symmetry; exact Pu|apply supp_zero]).
        destruct (c77_special m N g i u Hg HN H16 Hm Hk Hi (proj2 (lin_comb_qs_iff _ _) Lu)) as (s & s' & Es & Es' & Ps).
        rewrite (pp_permute _ _ _ _ PP (pS lam) (pS (special_class i)) c w u t s Ll Ls Lc' Ew Et Eu Es), Ps.
        destruct (w_pi m N g Hg HN H16 Hm Hk i u s' Hi Lu Es') as [Pe' _]. rewrite Pe'. unfold ext. rewrite Pu. reflexivity. }
  destruct (G (du lam) (ch_all mu (du lam) Hmu (HV lam Hl))) as (c & qs & Lc & _ & HQ & Hne & z & Ez & Pz).
  destruct (w_point m N g Hg HN H16 Hm Hk lam c Hl Lc) as (z' & Ez' & _ & HE). rewrite Ez in Ez'. inversion Ez'; subst z'. apply Hne. rewrite <- HE, (Pz _) by auto. reflexivity.
Qed.
End Two.
