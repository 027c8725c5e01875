(** The lemmas behind C91 in PropsMaxQ.v. *)

From Coq Require Import ZArith List Lia Bool Permutation QArith Qcanon Setoid Morphisms.
From Verif Require Import Py OrderFacts PyFacts ModelPart ModelQcalc ModelPoly ModelStr ModelGr Spec SpecMinQ SpecMaxQ
  PolyFacts SuppFacts OpTheory PartFacts Sys Sys2 SysApi RingA FactsA ApiA GrInv RingData ApiReach QOcc LoopQ.
Import ListNotations.
Open Scope Z_scope.

Section A.
Variables (m n : Z) (g : gr).
Hypothesis Hg : Grassmannian m n = Ok g.
Hypothesis Hm : 1 <= m.
Notation V := (in_box m (n - m)).

Lemma c91_loop lam mu : V lam -> V mu ->
  exists r, qmult g (pS lam) (pS mu) = Ok r /\ forall d, has_power r d <-> loop_ok m (n - m) lam mu (Z.of_nat d).
Proof.
  intros Hl Hmu. pose proof (pos_A m n g true Hg Hm) as HP. apply gr_inv in Hg. destruct Hg as (_ & Hk & ->).
  pose proof (sysA m (n - m) Hm Hk true) as SY.
  destruct (api_prod SY (pS lam) (pS mu)) as (r & Er & Pr & _); auto using lin_comb_poly_in, lin_comb_pS.
  exists r. split; [exact Er|]. intros d.
  assert (pos : forall i l d x, IA (n - m) i -> V l -> (0 <= coef (P (piA m (n - m) true) i l) (qS d x))%Qc) by exact (P_pos (g := gA m (n - m)) (qq := true) SY HP).
  rewrite <- (power_loop m (n - m) Hm Hk pos lam mu d Hl Hmu). split; intros (z & Hz); exists z; [rewrite <- (Pr _)|rewrite (Pr _)]; auto.
Qed.
Lemma c91 lam mu : V lam -> V mu ->
  exists r, qmult g (pS lam) (pS mu) = Ok r /\ forall d, has_power r d <-> q_overlap m (n - m) lam mu d.
Proof.
  intros Hl Hmu. destruct (c91_loop lam mu Hl Hmu) as (r & Er & Pr). exists r. split; auto. intros d. rewrite Pr.
  apply gr_inv in Hg. destruct Hg as (_ & Hk & _). apply loop_parts; auto.
Qed.
Lemma c91_interval lam mu : V lam -> V mu ->
  exists r, qmult g (pS lam) (pS mu) = Ok r /\
    forall a b c, (a <= b <= c)%nat -> has_power r a -> has_power r c -> has_power r b.
Proof.
  intros Hl Hmu. destruct (c91_loop lam mu Hl Hmu) as (r & Er & Pr). exists r. split; auto. intros a b c Hab.
  apply gr_inv in Hg. destruct Hg as (_ & Hk & _). rewrite !Pr. apply loop_between; auto; lia.
Qed.
Lemma c91_square lam mu r d : V lam -> V mu -> qmult g (pS lam) (pS mu) = Ok r -> has_power r (S d) ->
  Z.of_nat (S d) <= part lam d /\ Z.of_nat (S d) <= part mu d.
Proof.
  intros Hl Hmu Er HP. destruct (c91 lam mu Hl Hmu) as (r' & Er' & Pr). rewrite Er in Er'. injection Er' as <-.
  apply Pr in HP. destruct HP as (Hd & HO).
  destruct (HO 0%nat ltac:(lia)) as (A & _). specialize (A ltac:(lia)). destruct (HO d ltac:(lia)) as (B & _). specialize (B ltac:(lia)).
  replace (S d - 1 - 0)%nat with d in A by lia. replace (S d - 1 - d)%nat with 0%nat in B by lia.
  destruct Hl as (_ & _ & Hl), Hmu as (_ & _ & Hmu). lia.
Qed.
End A.
