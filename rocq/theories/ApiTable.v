(** Multiplication tables of every Grassmannian. *)

From Coq Require Import ZArith List Lia Bool QArith Qcanon.
From Verif Require Import Py ModelPart ModelQcalc ModelPoly ModelGr Spec SpecMisc SpecRing ApiGr GrInv
  ApiRing ApiRingD SysApi Schub.
Import ListNotations.
Open Scope Z_scope.

Lemma symmetric_of prod L U : is_table prod L U ->
  (forall a b, In a L -> In b L -> exists r r', prod (pS a) (pS b) = Ok r /\ prod (pS b) (pS a) = Ok r' /\ peq r r') ->
  symmetric_table U.
Proof.
  intros [HU1 HU2] Hc i j r r' x y E1 E2 E3 E4.
  assert (Hi : (i < length L)%nat) by (rewrite <- HU1; apply nth_error_Some; congruence).
  assert (Hj : (j < length L)%nat) by (rewrite <- HU1; apply nth_error_Some; congruence).
  destruct (nth_error L i) as [a|] eqn:Ea; [|apply nth_error_None in Ea; lia].
  destruct (nth_error L j) as [b|] eqn:Eb; [|apply nth_error_None in Eb; lia].
  destruct (HU2 i a r Ea E1) as [_ Hx]. destruct (HU2 j b r' Eb E3) as [_ Hy].
  specialize (Hx j b x Eb E2). specialize (Hy i a y Ea E4).
  destruct (Hc a b) as (s & s' & Es & Es' & P); [eapply nth_error_In; eauto..|]. congruence.
Qed.

Lemma table_of (V : list Z -> Prop) g prod L : schub_classes g = Ok L -> (forall l, In l L -> V l) -> product_laws V prod ->
  exists T, mult_table_with prod g = Ok T /\ is_table prod L T /\ symmetric_table T.
Proof.
  intros EL HL P.
  assert (Hc : forall a b, In a L -> In b L -> exists r r', prod (pS a) (pS b) = Ok r /\ prod (pS b) (pS a) = Ok r' /\ peq r r').
  { intros a b Ha Hb. apply (pl_commutative _ _ P); apply lin_comb_pS; auto. }
  destruct (table_total prod g L EL) as [T ET]. { intros a b Ha Hb. destruct (Hc a b Ha Hb) as (r & _ & E & _). eauto. }
  destruct (table_entries _ _ _ ET) as (L1 & E1 & H1). rewrite EL in E1. inversion E1; subst L1.
  exists T. split; auto. split; auto. eapply symmetric_of; eauto.
Qed.

Lemma tables_IG m N g : IsotropicGrassmannian m N = Ok g ->
  exists L T T', schub_classes g = Ok L /\ MultTable g = Ok T /\ QMultTable g = Ok T' /\
    is_table (mult g) L T /\ is_table (qmult g) L T' /\ symmetric_table T /\ symmetric_table T'.
Proof.
  intros Hg. destruct (c13_IG m N g Hg) as (L & EL & _ & HL). destruct (c27_IG m N g Hg) as [P Q].
  destruct (table_of _ g _ L EL (fun l => proj1 (HL l)) P) as (T & E & H & S).
  destruct (table_of _ g _ L EL (fun l => proj1 (HL l)) Q) as (T' & E' & H' & S').
  exists L, T, T'. auto 10.
Qed.
Lemma tables_OG_odd m N g : OrthogonalGrassmannian m N = Ok g -> Z.odd N = true -> 1 <= m <= N / 2 ->
  exists L T T', schub_classes g = Ok L /\ MultTable g = Ok T /\ QMultTable g = Ok T' /\
    is_table (mult g) L T /\ is_table (qmult g) L T' /\ symmetric_table T /\ symmetric_table T'.
Proof.
  intros Hg HN Hm. assert (H1 : 1 <= N) by (destruct (Z_lt_le_dec N 1); auto; exfalso; assert (N / 2 < 1) by (apply Z.div_lt_upper_bound; lia); lia).
  destruct (c13_OG m N g Hg ltac:(lia) H1) as (L & EL & _ & HL). destruct (c27_OGodd m N g Hg HN Hm) as [P Q].
  destruct (table_of _ g _ L EL (fun l => proj1 (HL l)) P) as (T & E & H & S).
  destruct (table_of _ g _ L EL (fun l => proj1 (HL l)) Q) as (T' & E' & H' & S').
  exists L, T, T'. auto 10.
Qed.
Lemma tables_OG_even m N g : OrthogonalGrassmannian m N = Ok g -> Z.even N = true -> 4 <= N -> 1 <= m <= N / 2 ->
  exists L, schub_classes g = Ok L /\
    (exists T, MultTable g = Ok T /\ is_table (mult g) L T /\ symmetric_table T) /\
    (m <> N / 2 - 1 -> exists T, QMultTable g = Ok T /\ is_table (qmult g) L T /\ symmetric_table T).
Proof.
  intros Hg HN H4 Hm. destruct (c13_OG m N g Hg ltac:(lia) ltac:(lia)) as (L & EL & _ & HL).
  destruct (c27_OGeven m N g Hg HN H4 Hm) as [P Q]. exists L. split; auto. split.
  - exact (table_of _ g _ L EL (fun l => proj1 (HL l)) P).
  - intros H. exact (table_of _ g _ L EL (fun l => proj1 (HL l)) (Q H)).
Qed.
