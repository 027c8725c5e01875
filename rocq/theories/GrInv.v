(** What the constructors produce, and the classes of IG and OG. *)

From Coq Require Import ZArith List Lia Bool Permutation.
From Verif Require Import Py OrderFacts ModelPart ModelQcalc ModelPoly ModelStr ModelGr Spec
  PyFacts PartFacts Schub.
Import ListNotations.
Open Scope Z_scope.

Lemma ig_inv m N g : IsotropicGrassmannian m N = Ok g ->
  exists n, N = 2 * n /\ N / 2 = n /\ 0 <= m <= n /\ g = mkGr TC (n - m) n.
Proof.
  unfold IsotropicGrassmannian. destruct ((m <? 0) || (N <? 0)) eqn:E1; [discriminate|].
  destruct (N mod 2 =? 1) eqn:E2; [discriminate|]. destruct (N / 2 <? m) eqn:E3; [discriminate|].
  intros E. inversion E; subst. exists (N / 2).
  pose proof (Z.div_mod N 2). pose proof (Z.mod_pos_bound N 2). repeat split; try lia.
Qed.

Lemma og_inv m N g : OrthogonalGrassmannian m N = Ok g -> m <= N / 2 ->
  (exists n, N = 2 * n + 1 /\ N / 2 = n /\ Z.even N = false /\ 0 <= m <= n /\ g = mkGr TB (n - m) n) \/
  (exists n, N = 2 * n + 2 /\ N / 2 = n + 1 /\ Z.even N = true /\ 0 <= m <= n + 1 /\ g = mkGr TD (n + 1 - m) n).
Proof.
  unfold OrthogonalGrassmannian. destruct ((m <? 0) || (N <? 0)) eqn:E1; [discriminate|].
  pose proof (Z.div_mod N 2). pose proof (Z.mod_pos_bound N 2).
  rewrite Zeven_mod.
  destruct (N mod 2 =? 1) eqn:E2; intros E Hm; inversion E; subst.
  - left. exists (N / 2). assert (Hn : (N - 1) / 2 = N / 2).
    { replace (N - 1) with ((N / 2) * 2) by lia. apply Z.div_mul. lia. }
    rewrite Hn. repeat split; try lia. unfold Zeq_bool. replace (N mod 2) with 1 by lia. auto.
  - right. exists (N / 2 - 1). repeat split; try lia.
    + unfold Zeq_bool. replace (N mod 2) with 0 by lia. auto.
    + f_equal; lia.
Qed.

Lemma c13_kstrict k rows cols : 0 <= k <= cols -> 0 <= rows ->
  exists L, all_kstrict k rows cols = Ok L /\ NoDup L /\
    forall l, In l L <-> kstrict_in k rows cols l.
Proof. apply all_kstrict_ok. Qed.

Lemma c13_cols : exists k rows cols L l,
  0 <= k /\ 0 <= rows /\ 0 <= cols /\
  all_kstrict k rows cols = Ok L /\ In l L /\ ~ kstrict_in k rows cols l.
Proof.
  exists 3, 1, 2, [[3]; [2]; [1]; []], [3]. split; [lia|]. split; [lia|]. split; [lia|].
  split; [vm_compute; reflexivity|]. split; [simpl; auto|].
  intros [(_ & _ & H) _]. unfold part in H. simpl in H. lia.
Qed.

Lemma c13_IG m N g : IsotropicGrassmannian m N = Ok g ->
  exists L, schub_classes g = Ok L /\ strictly_increasing L /\ (forall l, In l L <-> class_IG m N l).
Proof.
  intros Hg. apply ig_inv in Hg. destruct Hg as (n & EN & En & Hm & ->).
  destruct (schub_BC TC (n - m) n) as (L & E & H1 & H2); auto; try lia.
  exists L. split; auto. split; auto. intros l. rewrite H2. unfold class_IG. rewrite En.
  replace (n - (n - m)) with m by lia. replace (N - m) with (n + (n - m)) by lia. reflexivity.
Qed.

Lemma c13_OG m N g : OrthogonalGrassmannian m N = Ok g -> m <= N / 2 -> 1 <= N ->
  exists L, schub_classes g = Ok L /\ strictly_increasing L /\ (forall l, In l L <-> class_OG m N l).
Proof.
  intros Hg Hm HN. destruct (og_inv m N g Hg Hm) as [(n & EN & En & Ev & Hm' & ->)|(n & EN & En & Ev & Hm' & ->)];
    unfold class_OG; rewrite Ev, En.
  - destruct (schub_BC TB (n - m) n) as (L & E & H1 & H2); auto; try lia.
    exists L. split; auto. split; auto. intros l. rewrite H2.
    replace (n - (n - m)) with m by lia. replace (N - 1 - m) with (n + (n - m)) by lia. reflexivity.
  - destruct (schub_D (n + 1 - m) n) as (L & E & H1 & H2); auto; try lia.
    exists L. split; auto. split; auto. intros l. rewrite H2.
    replace (n + 1 - (n + 1 - m)) with m by lia. replace (N - 1 - m) with (n + (n + 1 - m)) by lia. reflexivity.
Qed.
