(** The Littlewood-Richardson rule in the form of the API: the lemma behind
    PropsLR.v. *)

From Coq Require Import ZArith List Lia Bool Permutation QArith Qcanon Setoid Morphisms.
From Verif Require Import Py OrderFacts PyFacts ModelPart ModelQcalc ModelPoly ModelStr ModelGr Spec SpecMisc
  PolyFacts SuppFacts OpTheory Enum FillFacts PartFacts PieriA QPieriA CylA Sys Sys2 SysApi RingA FactsA ApiA
  LRCore LRSum LRMult LRTab.
Import ListNotations.
Open Scope Z_scope.

Lemma P_deg0 m k dq i l : 1 <= m -> 0 <= k -> dom k false i -> in_box m k l ->
  supp (fun mo => exists e x, Permutation mo (qS e x) /\ size x + Z.of_nat e * dq = size l + Z.abs i)
    (P (piA m k false) i l).
Proof.
  intros Hm Hk Hi Hl. eapply supp_peq; [symmetry; apply (P_enum m k Hm Hk false i l Hl Hi)|].
  assert (Hi0 : 0 <= i) by (simpl in Hi; lia).
  apply msum_terms_supp.
  - intros a b Hab (e & x & H1 & H2). exists e, x. split; auto.
    eapply perm_trans; [apply Permutation_sym|]; eauto.
  - intros [e x] Hx. exists e, (part_clip x). split; [apply Permutation_refl|].
    rewrite (size_zsum (part_clip x)), (size_zsum l), zsum_clip. pose proof (in_box_wbox _ _ _ Hl) as Hw.
    apply EA_in in Hx; auto. rewrite zsum_padm in Hx.
    destruct Hx as [(-> & _ & H1)|(Hq & _)]; [lia|discriminate].
Qed.

Lemma mult_q_free m k lam mu : 1 <= m -> 0 <= k -> in_box m k lam -> in_box m k mu ->
  supp (fun mo => exists x, in_box m k x /\ mo = [vS x]) (MA m k false (pS lam) (pS mu)).
Proof.
  intros Hm Hk Hl Hmu.
  assert (G : forall dq, supp (hom size dq (in_box m k) (size lam + size mu)) (MA m k false (pS lam) (pS mu))).
  { intros dq. apply (sys_hom (sysA m k Hm Hk false) size dq); auto.
    - intros. eapply gsel_deg; eauto.
    - intros. apply P_int; auto using IA_dom.
    - intros. apply P_deg0; auto using IA_dom.
    - apply supp_pvar; [apply hom_inv|]. exists O, mu. split; [apply Permutation_refl|]. split; auto. lia.
    - apply intp_pvar. }
  intros mo Hmo. destruct (G 0 mo Hmo) as (e & x & Hp & Hx & Hd). destruct (G 1 mo Hmo) as (e' & x' & Hp' & _ & Hd').
  assert (E : Permutation (qS e x) (qS e' x')) by (eapply perm_trans; [apply Permutation_sym; exact Hp|exact Hp']).
  apply Sys.qS_inj in E. destruct E as [<- <-]. assert (e = O) by lia. subst e. exists x. split; auto.
  apply Permutation_length_1_inv. apply Permutation_sym. exact Hp.
Qed.

Lemma c50 m n g lam mu : Grassmannian m n = Ok g -> 1 <= m -> in_box m (n - m) lam -> in_box m (n - m) mu ->
  exists r, mult g (pS lam) (pS mu) = Ok r /\ lin_comb0 (in_box m (n - m)) r /\
    forall nu, in_box m (n - m) nu -> exists L, NoDup L /\ (forall T, In T L <-> lr_tableau m lam mu nu T) /\
      coef r [vS nu] = Q2Qc (inject_Z (Z.of_nat (length L))).
Proof.
  intros Hg Hm Hl Hmu. apply gr_inv in Hg. destruct Hg as (_ & Hk & ->).
  destruct (api_prod (sysA m (n - m) Hm Hk false) (pS lam) (pS mu)) as (r & E & Pr & _);
      auto using lin_comb_poly_in, lin_comb_pS.
  exists r. split; [exact E|]. split.
  - intros mo Hmo. rewrite (Pr mo) in Hmo. apply (mult_q_free m (n - m) lam mu); auto.
  - intros nu Hnu. destruct (lr_bij m (n - m) lam ltac:(lia) Hl mu nu Hmu Hnu) as (L & H1 & H2 & H3).
    exists L. split; auto. split; auto. rewrite H3, (Pr _). apply lr_count; auto.
Qed.
