(** The pairing of linear combinations of classes for which the classes are
    orthonormal and multiplication by q is unitary: the coefficient of q^d, for an
    integer [d], is the sum of the products of the coefficients of q^a S[x] on the
    left and q^b S[x] on the right with a - b = d. *)

From Coq Require Import ZArith List Lia Bool Permutation QArith Qcanon Setoid Morphisms.
From Verif Require Import Py OrderFacts ModelPart ModelQcalc ModelPoly ModelStr ModelGr Spec
  PolyFacts SuppFacts OpTheory WSum Sys Sys2 DualSys.
Import ListNotations.
Open Scope Z_scope.

Definition sw (d : Z) (r : poly) (m : mono) : Qc :=
  match filter (fun v => negb (isq v)) m with
  | [VS (SP x)] => if d <=? Z.of_nat (length m - 1) then coef r (qS (Z.to_nat (Z.of_nat (length m - 1) - d)) x) else 0%Qc
  | _ => 0%Qc
  end.

Lemma sw_inv d r : perm_inv (sw d r).
Proof.
  intros a b HP. unfold sw. rewrite (Permutation_length HP).
  pose proof (filter_perm (fun v => negb (isq v)) a b HP) as HF.
  destruct (filter (fun v => negb (isq v)) a) as [|v [|w x]].
  - apply Permutation_nil in HF. rewrite HF. reflexivity.
  - apply Permutation_length_1_inv in HF. rewrite HF. reflexivity.
  - apply Permutation_length in HF. destruct (filter (fun v => negb (isq v)) b) as [|v' [|w' y]]; simpl in HF; try discriminate.
    destruct v as [[?|? ?]| | |], v' as [[?|? ?]| | |]; reflexivity.
Qed.
Ltac swc m := unfold sw; destruct (filter (fun v => negb (isq v)) m) as [|[[?x|? ?]| | |] [|? ?]] eqn:?EF; try ring; try reflexivity.

Lemma sw_q d r e m : sw d r (repeat VQ e ++ m) = sw (d - Z.of_nat e) r m.
Proof.
  unfold sw. rewrite filter_repq, app_length, repeat_length.
  destruct (filter (fun v => negb (isq v)) m) as [|[[x|? ?]| | |] [|? ?]] eqn:EF; try reflexivity.
  apply filter_len1 in EF.
  destruct (Z.leb_spec d (Z.of_nat (e + length m - 1))), (Z.leb_spec (d - Z.of_nat e) (Z.of_nat (length m - 1))); try reflexivity; try lia.
  f_equal. f_equal. lia.
Qed.
Lemma sw_rq d r e m : sw d (pmul (pmono (repeat VQ e)) r) m = sw (d + Z.of_nat e) r m.
Proof.
  unfold sw.
  destruct (filter (fun v => negb (isq v)) m) as [|[[x|? ?]| | |] [|? ?]] eqn:EF; try reflexivity.
  rewrite coef_qmul.
  destruct (Z.leb_spec d (Z.of_nat (length m - 1))), (Z.leb_spec (d + Z.of_nat e) (Z.of_nat (length m - 1))),
    (Nat.leb_spec e (Z.to_nat (Z.of_nat (length m - 1) - d))); try reflexivity; try lia.
  f_equal. f_equal. lia.
Qed.
Lemma sw_padd d r s m : sw d (padd r s) m = (sw d r m + sw d s m)%Qc.
Proof. swc m. destruct (d <=? _); [apply coef_padd|ring]. Qed.
Lemma sw_pscale d c r m : sw d (pscale c r) m = (c * sw d r m)%Qc.
Proof. swc m. destruct (d <=? _); [apply coef_pscale|ring]. Qed.
Lemma sw_peq d r s m : peq r s -> sw d r m = sw d s m.
Proof. intros E. swc m. destruct (d <=? _); [apply E|reflexivity]. Qed.
Lemma sw_zero d m : sw d pzero m = 0%Qc.
Proof. swc m. destruct (d <=? _); reflexivity. Qed.

Definition sp (d : Z) (p r : poly) : Qc := phi (sw d r) p.

Lemma sp_peq_l d p p' r : peq p p' -> sp d p r = sp d p' r.
Proof. intros E. apply phi_peq; auto. apply sw_inv. Qed.
Lemma sp_peq_r d p r r' : peq r r' -> sp d p r = sp d p r'.
Proof. intros E. apply phi_ext. intros. apply sw_peq; auto. Qed.
Lemma sp_padd_l d p p' r : sp d (padd p p') r = (sp d p r + sp d p' r)%Qc.
Proof. apply phi_padd, sw_inv. Qed.
Lemma sp_padd_r d p r r' : sp d p (padd r r') = (sp d p r + sp d p r')%Qc.
Proof. unfold sp. rewrite <- phi_add. apply phi_ext. intros. apply sw_padd. Qed.
Lemma sp_pscale_l d c p r : sp d (pscale c p) r = (c * sp d p r)%Qc.
Proof. apply phi_pscale. Qed.
Lemma sp_pscale_r d c p r : sp d p (pscale c r) = (c * sp d p r)%Qc.
Proof. unfold sp. rewrite <- phi_mul. apply phi_ext. intros. apply sw_pscale. Qed.
Lemma sp_zero_l d r : sp d pzero r = 0%Qc.
Proof. reflexivity. Qed.
Lemma sp_zero_r d p : sp d p pzero = 0%Qc.
Proof. apply phi_zero. intros. apply sw_zero. Qed.
Lemma sp_q_l d e p r : sp d (pmul (pmono (repeat VQ e)) p) r = sp (d - Z.of_nat e) p r.
Proof.
  unfold sp. rewrite phi_pmul by apply sw_inv. cbn [pmono phi fold_right fst snd]. rewrite Qcplus_0_r, Qcmult_1_l.
  apply phi_ext. intros m c _. apply sw_q.
Qed.
Lemma sp_q_r d e p r : sp d p (pmul (pmono (repeat VQ e)) r) = sp (d + Z.of_nat e) p r.
Proof. unfold sp. apply phi_ext. intros m c _. apply sw_rq. Qed.
Lemma sp_pS_l d x r : sp d (pS x) r = if d <=? 0 then coef r (qS (Z.to_nat (- d)) x) else 0%Qc.
Proof.
  unfold sp, pS, pvar. cbn [phi fold_right fst snd]. rewrite Qcplus_0_r, Qcmult_1_l. unfold sw, vS.
  cbn [filter isq negb length Nat.sub]. change (Z.of_nat 0) with 0. rewrite Z.sub_0_l. reflexivity.
Qed.

Section V.
Variable V : list Z -> Prop.
Notation lq := (supp (linm V (eq VQ))).

Lemma sp_pS_r d p y : lq p -> sp d p (pS y) = if 0 <=? d then coef p (qS (Z.to_nat d) y) else 0%Qc.
Proof.
  revert p. apply (lin_ind V (eq VQ)).
  - intros p r E Hp. rewrite <- (sp_peq_l d p r _ E), Hp. destruct (0 <=? d); auto.
  - rewrite sp_zero_l. destruct (0 <=? d); reflexivity.
  - intros qm l c p Hl Hq _ IH. rewrite sp_padd_l, sp_pscale_l, coef_padd, coef_pscale, IH.
    rewrite (allQ qm Hq), sp_q_l, coef_qmul, sp_pS_l, !coef_pS_q.
    destruct (Z.leb_spec 0 d), (Z.leb_spec (d - Z.of_nat (length qm)) 0), (Nat.leb_spec (length qm) (Z.to_nat d)); try lia; try ring;
      repeat match goal with |- context [Nat.eqb ?a ?b] => destruct (Nat.eqb_spec a b); try lia end; try ring;
      destruct (l_dec y l), (l_dec l y); subst; try congruence; ring.
Qed.

(** two bilinear expressions that agree on classes agree *)
Definition lin_op (T : poly -> poly) : Prop :=
  (forall p p', peq p p' -> peq (T p) (T p')) /\ (forall p p', peq (T (padd p p')) (padd (T p) (T p'))) /\
  (forall c p, peq (T (pscale c p)) (pscale c (T p))) /\ peq (T pzero) pzero /\
  (forall e p, lq p -> peq (T (pmul (pmono (repeat VQ e)) p)) (pmul (pmono (repeat VQ e)) (T p))).

Lemma sp_bilin (T1 U1 T2 U2 : poly -> poly) : lin_op T1 -> lin_op U1 -> lin_op T2 -> lin_op U2 ->
  (forall d x y, V x -> V y -> sp d (T1 (pS x)) (U1 (pS y)) = sp d (T2 (pS x)) (U2 (pS y))) ->
  forall d p r, lq p -> lq r -> sp d (T1 p) (U1 r) = sp d (T2 p) (U2 r).
Proof.
  intros (A1 & A2 & A3 & A4 & A5) (B1 & B2 & B3 & B4 & B5) (C1 & C2 & C3 & C4 & C5) (D1 & D2 & D3 & D4 & D5) HB.
  assert (HX : forall x r, V x -> lq r -> forall d, sp d (T1 (pS x)) (U1 r) = sp d (T2 (pS x)) (U2 r)).
  { intros x r Hx. revert r. apply (lin_ind V (eq VQ) (fun r => forall d, sp d (T1 (pS x)) (U1 r) = sp d (T2 (pS x)) (U2 r))).
    - intros p r E Hp d. rewrite <- (sp_peq_r d _ _ _ (B1 _ _ E)), <- (sp_peq_r d _ _ _ (D1 _ _ E)). auto.
    - intros d. rewrite (sp_peq_r d _ _ _ B4), (sp_peq_r d _ _ _ D4), !sp_zero_r. reflexivity.
    - intros qm y c p Hy Hq Hp IH d. assert (Hl : lq (pS y)) by (apply sys_lq_pS; auto).
      rewrite (sp_peq_r d _ _ _ (B2 _ _)), (sp_peq_r d _ _ _ (D2 _ _)), !sp_padd_r, IH. f_equal.
      rewrite (sp_peq_r d _ _ _ (B3 _ _)), (sp_peq_r d _ _ _ (D3 _ _)), !sp_pscale_r. f_equal.
      rewrite (allQ qm Hq), (sp_peq_r d _ _ _ (B5 _ _ Hl)), (sp_peq_r d _ _ _ (D5 _ _ Hl)), !sp_q_r. auto. }
  intros d p r Hp Hr. revert d. revert p Hp. apply (lin_ind V (eq VQ) (fun p => forall d, sp d (T1 p) (U1 r) = sp d (T2 p) (U2 r))).
  - intros p s E Hp d. rewrite <- (sp_peq_l d _ _ _ (A1 _ _ E)), <- (sp_peq_l d _ _ _ (C1 _ _ E)). auto.
  - intros d. rewrite (sp_peq_l d _ _ _ A4), (sp_peq_l d _ _ _ C4). reflexivity.
  - intros qm x c p Hx Hq Hp IH d. assert (Hl : lq (pS x)) by (apply sys_lq_pS; auto).
    rewrite (sp_peq_l d _ _ _ (A2 _ _)), (sp_peq_l d _ _ _ (C2 _ _)), !sp_padd_l, IH. f_equal.
    rewrite (sp_peq_l d _ _ _ (A3 _ _)), (sp_peq_l d _ _ _ (C3 _ _)), !sp_pscale_l. f_equal.
    rewrite (allQ qm Hq), (sp_peq_l d _ _ _ (A5 _ _ Hl)), (sp_peq_l d _ _ _ (C5 _ _ Hl)), !sp_q_l. auto.
Qed.

Lemma lin_op_id : lin_op (fun p => p).
Proof. repeat split; auto; reflexivity. Qed.

(** linear combinations with the same pairings with all classes are equal *)
Lemma sp_nondeg u v : lq u -> lq v -> (forall d x, V x -> sp d (pS x) u = sp d (pS x) v) -> peq u v.
Proof.
  intros Hu Hv HE mo.
  assert (Q : forall p, lq p -> coef p mo <> 0%Qc -> exists d x, V x /\ Permutation mo (qS d x)).
  { intros p Hp Hc. destruct (Hp mo Hc) as (x & qm & Hx & HP & HQ). exists (length qm), x. split; auto. unfold qS. rewrite <- (allQ qm HQ). auto. }
  assert (R : forall d x, V x -> coef u (qS d x) = coef v (qS d x)).
  { intros d x Hx. specialize (HE (- Z.of_nat d) x Hx). rewrite !sp_pS_l in HE. destruct (Z.leb_spec (- Z.of_nat d) 0); [|lia].
    replace (Z.to_nat (- - Z.of_nat d)) with d in HE by lia. auto. }
  destruct (Qc_eq_dec (coef u mo) 0%Qc) as [E0|E0].
  - destruct (Qc_eq_dec (coef v mo) 0%Qc) as [E1|E1]; [congruence|].
    destruct (Q v Hv E1) as (d & x & Hx & HP). rewrite !(coef_perm _ _ _ HP). auto.
  - destruct (Q u Hu E0) as (d & x & Hx & HP). rewrite !(coef_perm _ _ _ HP). auto.
Qed.
End V.
