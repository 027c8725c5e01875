(** The quantum Pieri operators of OG(n,2n+2), n <= 7, are self-adjoint for the
    pairing of classes with their duals: a computation on each of the seven spaces,
    as in TwoComm.v.  Then so is every product. *)

From Coq Require Import ZArith List Lia Bool Permutation QArith Qcanon Setoid Morphisms.
From Verif Require Import Py OrderFacts PyFacts ModelPart ModelQcalc ModelPoly ModelStr ModelGr Spec SpecRing SpecPieri SpecAct SpecWeight
  PolyFacts SuppFacts Enum Schub ExprFacts OpTheory RingD TwoComm DualWordD.
Import ListNotations.
Open Scope Z_scope.

Definition isS (v : var) : bool := match v with VS _ => true | _ => false end.
Definition relab (x : list Z) (m : mono) : option (list Z * mono) :=
  match filter isS m with
  | [VS (SP z)] => Some (z, vS x :: filter (fun v => negb (isS v)) m)
  | _ => None
  end.
Definition adj1 (F : Z -> list Z -> res poly) (t : trie) (d : list Z -> list Z) (i : Z) (x : list Z) : bool :=
  match get F t i x with
  | Ok p => forallb (fun mc => match relab (d x) (fst mc) with
      | Some (z, m) => match get F t i (d z) with Ok r => Qc_eq_bool (coef r m) (coef p (fst mc)) | Err _ => false end
      | None => false
      end) p
  | Err _ => false
  end.
Definition adj (F : Z -> list Z -> res poly) (d : list Z -> list Z) (I : list Z) (ls : list (list Z)) : bool :=
  let t := build F I ls in forallb (fun x => forallb (fun i => adj1 F t d i x) I) ls.

Lemma filter_perm' {A} (f : A -> bool) a b : Permutation a b -> Permutation (filter f a) (filter f b).
Proof.
  induction 1; cbn [filter]; auto.
  - destruct (f x); auto.
  - destruct (f x), (f y); auto. apply perm_swap.
  - eapply perm_trans; eauto.
Qed.
Lemma filter_qs qs : Forall isqv qs -> filter isS qs = [] /\ filter (fun v => negb (isS v)) qs = qs.
Proof.
  induction 1 as [|v t Hv _ [IH1 IH2]]; [auto|]. destruct v; simpl in Hv; try contradiction; cbn [filter isS negb]; rewrite IH1, IH2; auto.
Qed.
Lemma relab_ok x m z qs : Permutation m (vS z :: qs) -> Forall isqv qs -> exists m', relab x m = Some (z, m') /\ Permutation m' (vS x :: qs).
Proof.
  intros HP HQ. destruct (filter_qs qs HQ) as [F1 F2]. unfold relab.
  pose proof (filter_perm' isS _ _ HP) as A. pose proof (filter_perm' (fun v => negb (isS v)) _ _ HP) as B.
  cbn [filter isS vS negb] in A, B. rewrite F1 in A. rewrite F2 in B. apply Permutation_sym, Permutation_length_1_inv in A. rewrite A. eexists. split; [reflexivity|]. constructor. exact B.
Qed.

Definition twin (F : Z -> list Z -> res poly) (d : list Z -> list Z) (i : Z) (x : list Z) (m : mono) : Prop :=
  forall z qs, Permutation m (vS z :: qs) -> Forall isqv qs -> coef (P F i x) m = coef (P F i (d z)) (vS (d x) :: qs).
Lemma twin_inv F d i x : minv (twin F d i x).
Proof. intros a b HP H z qs Hz HQ. rewrite <- (coef_perm _ _ _ HP). apply H; auto. rewrite HP. exact Hz. Qed.
Lemma Qc_eq_bool_ok a b : Qc_eq_bool a b = true -> a = b.
Proof. unfold Qc_eq_bool. destruct (Qc_eq_dec a b); congruence. Qed.
Lemma adj_ok F d I ls i x : adj F d I ls = true -> In i I -> In x ls -> supp (twin F d i x) (P F i x).
Proof.
  intros H Hi Hx. unfold adj in H. cbv zeta in H. rewrite forallb_forall in H. specialize (H x Hx). rewrite forallb_forall in H. specialize (H i Hi).
  unfold adj1 in H. rewrite (get_ok F I) in H by apply build_ok.
  apply rawsupp_supp; [apply twin_inv|]. intros m c Hin z qs HP HQ.
  unfold P at 1. unfold P in Hin. destruct (F i x) as [p|] eqn:E; [|destruct Hin].
  rewrite forallb_forall in H. specialize (H (m, c) Hin). cbn [fst] in H. destruct (relab_ok (d x) m z qs HP HQ) as (m' & Em & Pm). rewrite Em in H.
  rewrite (get_ok F I) in H by apply build_ok. unfold P. destruct (F i (d z)) as [r|]; [|discriminate]. apply Qc_eq_bool_ok in H. rewrite <- H. apply coef_perm. exact Pm.
Qed.

(** ** the seven spaces *)
Definition ad (n : Z) : bool := adj (F1 n) (dualD 1 n) (ix n) (cls n).
Lemma ad_1 : ad 1 = true. Proof. vm_cast_no_check (eq_refl true). Qed.
Lemma ad_2 : ad 2 = true. Proof. vm_cast_no_check (eq_refl true). Qed.
Lemma ad_3 : ad 3 = true. Proof. vm_cast_no_check (eq_refl true). Qed.
Lemma ad_4 : ad 4 = true. Proof. vm_cast_no_check (eq_refl true). Qed.
Lemma ad_5 : ad 5 = true. Proof. vm_cast_no_check (eq_refl true). Qed.
Lemma ad_6 : ad 6 = true. Proof. vm_cast_no_check (eq_refl true). Qed.
Lemma ad_7 : ad 7 = true. Proof. vm_cast_no_check (eq_refl true). Qed.

Section D1.
Variable n : Z.
Hypothesis Hn : 1 <= n <= 7.
Notation V := (typed_in 1 n (n + 1)).
Notation pi := (qpieri_fun (gD 1 n)).
Notation du := (dualD 1 n).
Lemma VD : typed_in 1 (n + 1 - 1) (n + 1) = V.
Proof. f_equal. lia. Qed.
Lemma du_V l : V l -> V (du l).
Proof. rewrite <- VD. apply dualD_V. lia. Qed.
Lemma du_du l : V l -> du (du l) = l.
Proof. rewrite <- VD. apply dualD_dualD. lia. Qed.
Lemma twin_D1 i x : ID 1 n i -> V x -> supp (twin pi du i x) (P pi i x).
Proof.
  intros Hi Hx.
  assert (HI : In i (ix n)) by (destruct Hi as [Ha|Ha]; unfold ix; [right; apply in_zrange; lia|left; lia]).
  assert (HC : In x (cls n)).
  { unfold cls. destruct (schub_D 1 n ltac:(lia) ltac:(lia)) as (L & -> & _ & HL). apply HL. replace (n + 1 - 1) with n by lia. exact Hx. }
  assert (HK : ad n = true).
  { assert (n = 1 \/ n = 2 \/ n = 3 \/ n = 4 \/ n = 5 \/ n = 6 \/ n = 7) as D by lia. clear - D.
    destruct D as [->|[->|[->|[->|[->|[->| ->]]]]]]; [exact ad_1|exact ad_2|exact ad_3|exact ad_4|exact ad_5|exact ad_6|exact ad_7]. }
  apply (adj_ok (F1 n) du (ix n) (cls n) i x HK HI HC).
Qed.
Lemma adj_D1 i x y qs : ID 1 n i -> V x -> V y -> Forall isqv qs ->
  coef (P pi i x) (vS (du y) :: qs) = coef (P pi i y) (vS (du x) :: qs).
Proof.
  intros Hi Hx Hy HQ.
  assert (G : forall a b, V a -> V b -> coef (P pi i a) (vS (du b) :: qs) <> 0%Qc -> coef (P pi i a) (vS (du b) :: qs) = coef (P pi i b) (vS (du a) :: qs)).
  { intros a b Ha Hb Hne. rewrite (twin_D1 i a Hi Ha _ Hne (du b) qs); auto. rewrite du_du; auto. }
  destruct (Qc_eq_dec (coef (P pi i x) (vS (du y) :: qs)) 0%Qc) as [E|E]; [|auto].
  destruct (Qc_eq_dec (coef (P pi i y) (vS (du x) :: qs)) 0%Qc) as [E'|E']; [congruence|]. symmetry. auto.
Qed.
End D1.
