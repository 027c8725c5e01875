(** The Pieri rule for isotropic Grassmannians. *)

From Coq Require Import ZArith List Lia Bool.
From Verif Require Import Py PyFacts ModelPart ModelQcalc Spec SpecPieri PartFacts PieriSet PieriBKT.
Import ListNotations.
Open Scope Z_scope.

Lemma c23 p lam k n d :
  0 <= k -> 0 <= n -> d = 0 \/ d = 1 -> k <= n + d -> kstrict_in k (n + d - k) (n + k) lam ->
  exists L, pieri_set p lam k n d = Ok L /\ strictly_increasing (rev L) /\ NoDup L /\
    forall mu, In mu L -> kstrict_in k (n + d - k) (n + k) mu /\ size mu = size lam + p.
Proof.
  intros Hk Hn Hd Hrc HL. destruct (pieri_set_prel k n d lam Hk Hn Hd Hrc HL p) as (L & E & H1 & H2 & H3).
  exists L. split; auto. split; auto. split; auto. intros mu Hmu. apply H3 in Hmu. rewrite !size_zsum. tauto.
Qed.
Lemma c24 p lam k n d :
  0 <= k -> 0 <= n -> d = 0 \/ d = 1 -> k <= n + d -> kstrict_in k (n + d - k) (n + k) lam ->
  exists L, pieri_set p lam k n d = Ok L /\
    forall mu, In mu L <->
      kstrict_in k (n + d - k) (n + k) mu /\ size mu = size lam + p /\ pieri_arrow k d lam mu.
Proof.
  intros Hk Hn Hd Hrc HL. destruct (pieri_set_prel k n d lam Hk Hn Hd Hrc HL p) as (L & E & H1 & H2 & H3).
  exists L. split; auto. intros mu. rewrite (H3 mu), (size_zsum mu), (size_zsum lam). split; intros (A & B & C); split; auto; split; auto;
    apply (arrow_prel k n d); auto.
Qed.
