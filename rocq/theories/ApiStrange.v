(** The lemmas behind C92 in PropsStrange.v. *)

From Coq Require Import ZArith List Lia Bool Permutation QArith Qcanon Setoid Morphisms.
From Verif Require Import Py OrderFacts PyFacts ModelPart ModelQcalc ModelPoly ModelStr ModelGr Spec
  PolyFacts SuppFacts OpTheory PartFacts Sys Sys2 SysApi RingA FactsA ApiA ApiConvA GrInv RingData ApiDual ApiVert Seidel StrangeA.
Import ListNotations.
Open Scope Z_scope.

Section A.
Variables (m n : Z) (g : gr).
Hypothesis Hg : Grassmannian m n = Ok g.
Hypothesis Hm : 1 <= m < n.
Notation V := (in_box m (n - m)).

Lemma c92_data : (forall l, V l -> exists d, dualize g (pS l) = Ok d /\ peq d (pS (dualA m (n - m) l))) /\
  (forall a b, V a -> V b -> exists r, qmult g (pS a) (pS b) = Ok r /\ peq r (M TA (piA m (n - m) true) (n - m) (giam_fuel (gA m (n - m))) (pS a) (pS b))) /\
  point_class g = repeat (n - m) (Z.to_nat m) /\ V (repeat (n - m) (Z.to_nat m)) /\ (forall l, V l -> V (dualA m (n - m) l)).
Proof.
  pose proof Hg as Hg'. apply gr_inv in Hg'. destruct Hg' as (_ & Hk & Eg). split; [|split; [|split; [|split]]].
  - intros l Hl. destruct (c17_class m n g l Hg Hl) as (nu & r & E & Pr & Hnu & C & _). exists r. split; auto.
    rewrite Pr. apply (dualA_compl m (n - m)) in C; auto; [|lia]. rewrite C. reflexivity.
  - intros a b Ha Hb. assert (Hm1 : 1 <= m) by lia. rewrite Eg. destruct (qmult_MA m (n - m) Hm1 Hk a b Ha Hb) as (r & E & Pr & _). exists r. split; auto.
  - rewrite Eg. unfold point_class. unfold gA. cbn [g_k g_n g_type]. destruct (Z.ltb_spec 0 (n - m)); [|lia]. unfold repz. f_equal. lia.
  - apply rep_box; lia.
  - intros. apply dualA_box; auto; lia.
Qed.
Lemma single_of e rho r : peq r (pmul (pmono (repeat VQ e)) (pS rho)) -> is_sum_of r (fun d x => d = e /\ x = rho).
Proof.
  intros E. apply single_term. rewrite E. change (pS rho) with (pmono (qS 0 rho)). rewrite pmono_qS_add. replace (e + 0)%nat with e by lia. reflexivity.
Qed.
Lemma c92 lam mu nu : V lam -> V mu -> V nu -> exists lam' mu' e dl rp r r',
  dualize g (pS lam) = Ok dl /\ peq dl (pS lam') /\
  qmult g (pS (point_class g)) (pS mu) = Ok rp /\ is_sum_of rp (fun d x => d = e /\ x = mu') /\
  qmult g (pS lam) (pS mu) = Ok r /\ qmult g (pS lam') (pS nu) = Ok r' /\
  (forall d f, (d + f = e)%nat -> coef r (qS d nu) = coef r' (qS f mu')) /\
  (forall d, (e < d)%nat -> coef r (qS d nu) = 0%Qc /\ coef r' (qS d mu') = 0%Qc).
Proof.
  intros Hl Hmu Hnu. destruct c92_data as (DD & PP & -> & HP & DV).
  destruct (strange_coef m (n - m) ltac:(lia) ltac:(lia) lam mu nu Hl Hmu Hnu) as (e & rho & Hr & E & C1 & C2 & C3).
  destruct (DD lam Hl) as (dl & Ed & Pd). destruct (PP _ _ HP Hmu) as (rp & Ep & Pp). destruct (PP _ _ Hl Hmu) as (r & Er & Pr).
  destruct (PP _ _ (DV lam Hl) Hnu) as (r' & Er' & Pr').
  exists (dualA m (n - m) lam), rho, e, dl, rp, r, r'. repeat (split; [solve [auto]|]).
  split; [apply single_of; rewrite Pp; exact E|]. repeat (split; [solve [auto]|]). split.
  - intros d f <-. rewrite (Pr _), (Pr' _), C1 by lia. do 2 f_equal. lia.
  - intros d Hd. rewrite (Pr _), (Pr' _). auto.
Qed.
Lemma c92_auto lam mu nu : V lam -> V mu -> V nu -> exists lam' mu' nu' nup e dl dm dn rp r r',
  dualize g (pS lam) = Ok dl /\ peq dl (pS lam') /\ dualize g (pS mu) = Ok dm /\ peq dm (pS mu') /\
  dualize g (pS nu) = Ok dn /\ peq dn (pS nu') /\
  qmult g (pS (point_class g)) (pS nu') = Ok rp /\ is_sum_of rp (fun d x => d = e /\ x = nup) /\
  qmult g (pS lam) (pS mu) = Ok r /\ qmult g (pS lam') (pS mu') = Ok r' /\
  (forall d f, (d + f = e)%nat -> coef r (qS d nu) = coef r' (qS f nup)) /\
  (forall d, (e < d)%nat -> coef r (qS d nu) = 0%Qc /\ coef r' (qS d nup) = 0%Qc).
Proof.
  intros Hl Hmu Hnu. destruct c92_data as (DD & PP & -> & HP & DV).
  destruct (strange_auto m (n - m) ltac:(lia) ltac:(lia) lam mu nu Hl Hmu Hnu) as (e & rho & Hr & E & C1 & C2 & C3).
  destruct (DD lam Hl) as (dl & Ed & Pd). destruct (DD mu Hmu) as (dm & Em & Pm). destruct (DD nu Hnu) as (dn & En & Pn).
  destruct (PP _ _ HP (DV nu Hnu)) as (rp & Ep & Pp). destruct (PP _ _ Hl Hmu) as (r & Er & Pr).
  destruct (PP _ _ (DV lam Hl) (DV mu Hmu)) as (r' & Er' & Pr').
  exists (dualA m (n - m) lam), (dualA m (n - m) mu), (dualA m (n - m) nu), rho, e, dl, dm, dn, rp, r, r'. repeat (split; [solve [auto]|]).
  split; [apply single_of; rewrite Pp; exact E|]. repeat (split; [solve [auto]|]). split.
  - intros d f <-. rewrite (Pr _), (Pr' _), C1 by lia. do 2 f_equal. lia.
  - intros d Hd. rewrite (Pr _), (Pr' _). auto.
Qed.
End A.
