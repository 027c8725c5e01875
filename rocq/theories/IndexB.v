(** Index sets of OG(m,2n+1): those of IG(m,2n) with the middle value n+1 skipped. *)

From Coq Require Import ZArith List Lia Bool.
From Verif Require Import Py OrderFacts ModelPart ModelQcalc ModelPoly Spec PyFacts PartFacts ConjFacts PairFacts IndexC.
Import ListNotations.
Open Scope Z_scope.

Lemma part_map_in f l j : (j < length l)%nat -> part (map f l) j = f (part l j).
Proof. intros H. unfold part. rewrite nth_indep with (d' := f 0) by (rewrite map_length; auto). apply map_nth. Qed.

Section B.
Variables (n k m : Z).
Hypothesis Hk : 0 <= k.
Hypothesis Hm : 0 <= m.
Hypothesis Hn : n = m + k.

Definition shift (x : Z) : Z := if x <=? n then x else x + 1.
Definition unshift (x : Z) : Z := if x <=? n then x else x - 1.
Definition idxB (l : list Z) : list Z := map shift (idxC n k m l).
Definition prtB (p : list Z) : list Z := prtC n k m (map unshift p).
Definition iso_B (p : list Z) : Prop := isotropic_set m (2 * n + 1) p.

Lemma shift_set p : iso_set n m p -> iso_B (map shift p).
Proof.
  intros [(L & R & I) S]. split; [split; [|split]|]; rewrite map_length in *; auto.
  - intros j Hj. rewrite part_map_in by auto. specialize (R j Hj). unfold shift. destruct (part p j <=? n); lia.
  - intros i j Hij. rewrite !part_map_in by lia. specialize (I i j Hij). unfold shift.
    destruct (part p i <=? n) eqn:E1, (part p j <=? n) eqn:E2; lia.
  - intros i j Hi Hj. rewrite !part_map_in by lia. specialize (S i j Hi Hj). unfold shift.
    destruct (part p i <=? n) eqn:E1, (part p j <=? n) eqn:E2; lia.
Qed.
Lemma B_middle p j : iso_B p -> (j < length p)%nat -> part p j <> n + 1.
Proof. intros [_ S] Hj. specialize (S j j Hj Hj). lia. Qed.
Lemma unshift_set p : iso_B p -> iso_set n m (map unshift p).
Proof.
  intros Hp. assert (M' := fun j => B_middle p j Hp). destruct Hp as [(L & R & I) S].
  split; [split; [|split]|]; rewrite map_length in *; auto.
  - intros j Hj. rewrite part_map_in by auto. specialize (R j Hj). specialize (M' j Hj). unfold unshift. destruct (part p j <=? n) eqn:E; lia.
  - intros i j Hij. rewrite !part_map_in by lia. specialize (I i j Hij). pose proof (M' i ltac:(lia)). pose proof (M' j ltac:(lia)).
    unfold unshift. destruct (part p i <=? n) eqn:E1, (part p j <=? n) eqn:E2; lia.
  - intros i j Hi Hj. rewrite !part_map_in by lia. specialize (S i j Hi Hj). unfold unshift.
    pose proof (M' i Hi). pose proof (M' j Hj).
    destruct (part p i <=? n) eqn:E1, (part p j <=? n) eqn:E2; lia.
Qed.
Lemma unshift_shift p : map unshift (map shift p) = p.
Proof.
  rewrite map_map. rewrite <- (map_id p) at 2. apply map_ext. intros x. unfold shift, unshift.
  destruct (x <=? n) eqn:E; [rewrite E; auto|]. replace (x + 1 <=? n) with false by lia. lia.
Qed.
Lemma shift_unshift p : iso_B p -> map shift (map unshift p) = p.
Proof.
  intros Hp. rewrite map_map. rewrite <- (map_id p) at 2. apply map_ext_in. intros x Hx.
  apply In_nth with (d := 0) in Hx. destruct Hx as (j & Hj & <-). pose proof (B_middle p j Hp Hj) as M. unfold part in M.
  unfold shift, unshift. destruct (nth j p 0 <=? n) eqn:E; [rewrite E; auto|].
  replace (nth j p 0 - 1 <=? n) with false by lia. lia.
Qed.

Lemma idxB_set l : kstrict_in k m (n + k) l -> iso_B (idxB l).
Proof. intros H. apply shift_set. apply idxC_set; auto. Qed.
Lemma prtB_in p : iso_B p -> kstrict_in k m (n + k) (prtB p).
Proof. intros H. apply prtC_in; auto. apply unshift_set; auto. Qed.
Lemma prtB_idxB l : kstrict_in k m (n + k) l -> prtB (idxB l) = l.
Proof. intros H. unfold prtB, idxB. rewrite unshift_shift. apply prtC_idxC; auto. Qed.
Lemma idxB_prtB p : iso_B p -> idxB (prtB p) = p.
Proof. intros H. unfold prtB, idxB. rewrite idxC_prtC; auto using unshift_set. apply shift_unshift; auto. Qed.

(** *** the model *)
Lemma part2indexB_ok l : kstrict_in k m (n + k) l -> part2indexB_inner l k n = Ok (idxB l).
Proof.
  intros Hl. unfold part2indexB_inner, idxB, idxC. rewrite map_map. replace (n - k) with m by lia.
  apply mapM_ok. intros j Hj.
  apply in_zrange in Hj. assert (E : exists i, j = Z.of_nat i) by (exists (Z.to_nat j); lia). destruct E as [i ->].
  rewrite (py_get_in _ (Z.of_nat i) 0) by (rewrite zlen_app, zlen_repz by lia; pose proof (zlen_nonneg l); lia).
  cbn [bind]. rewrite !Nat2Z.id. change (nth i (l ++ repz 0 m) 0) with (part (l ++ repz 0 m) i). rewrite part_app0.
  pose proof (idxC_small n k m l Hl i ltac:(lia)) as S. rewrite part_idxC in S by lia. unfold shift.
  destruct (k <? part l i) eqn:E.
  - rewrite (c_gt n k m l Hl) in * by lia. destruct (n + k + 1 - part l i + 0 <=? n) eqn:E2; [f_equal; lia|lia].
  - rewrite (count_inner_ok k _ l) by (try apply part_app0; rewrite app_length; unfold repz; rewrite repeat_length; lia).
    cbn [bind]. replace (n + k + 1 - part l i + cC k l i <=? n) with false by lia. unfold cC, RC. rewrite Z.add_0_r. f_equal. lia.
Qed.

Lemma index2partB_ok p : iso_B p -> index2partB_inner p k n = Ok (prtB p).
Proof.
  intros Hp. pose proof (unshift_set p Hp) as Hu. pose proof Hp as [(L & R & I) S].
  unfold index2partB_inner, prtB, prtC, preC. replace (n - k) with m by lia.
  erewrite mapM_ok; [reflexivity|]. intros j Hj.
  apply in_zrange in Hj. assert (E : exists i, j = Z.of_nat i) by (exists (Z.to_nat j); lia). destruct E as [i ->].
  cbv beta. rewrite !Nat2Z.id. rewrite (py_get_in _ (Z.of_nat i) 0) by (unfold zlen; lia). cbn [bind]. rewrite !Nat2Z.id.
  change (nth i p 0) with (part p i). pose proof (B_middle p i Hp ltac:(lia)) as M.
  rewrite part_map_in by lia. destruct (part p i <=? n) eqn:E.
  - unfold unshift at 1. rewrite E.
    rewrite (d_small n m (map unshift p) Hu) by (try rewrite part_map_in by lia; unfold unshift; rewrite ?E; lia).
    f_equal. lia.
  - rewrite count_idx_ok by lia. cbn [bind]. unfold unshift at 1. rewrite E. f_equal.
    enough (cnt (fun i0 => 2 * n + 2 <? part p i0 + part p i) i = dC n (map unshift p) i) by lia.
    apply cnt_ext. intros h Hh. unfold QC. rewrite !part_map_in by lia. unfold unshift. rewrite E.
    pose proof (B_middle p h Hp ltac:(lia)).
    destruct (part p h <=? n) eqn:E2.
    + destruct (2 * n + 2 <? part p h + part p i) eqn:E3; symmetry; [apply Z.ltb_lt|apply Z.ltb_ge]; lia.
    + transitivity true; [|symmetry]; apply Z.ltb_lt; lia.
Qed.
End B.
