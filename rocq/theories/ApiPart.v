(** Predicates of partition.py. *)

From Coq Require Import ZArith List Lia Bool Permutation QArith Qcanon.
From Verif Require Import Py OrderFacts ModelPart ModelQcalc ModelPoly Spec PyFacts PartFacts.
Import ListNotations.
Open Scope Z_scope.

Lemma non_increasing_iff l : is_non_increasing l = true <->
  forall i j, (i <= j < length l)%nat -> part l j <= part l i.
Proof.
  induction l as [|x [|y l] IH].
  - split; auto. intros _ i j H. simpl in H. lia.
  - split; auto. intros _ i j H. simpl in H. assert (i = 0%nat) by lia. assert (j = 0%nat) by lia. subst. lia.
  - cbn [is_non_increasing]. destruct (Z.ltb_spec x y).
    + split; [discriminate|]. intros HH. specialize (HH 0%nat 1%nat). unfold part in HH. simpl in HH. lia.
    + change ((fix is_non_increasing (l : list Z) := _) (y :: l)) with (is_non_increasing (y :: l)) || idtac.
      rewrite IH. clear IH. split.
      * intros HH [|i] [|j] Hij; try lia.
        -- specialize (HH 0%nat j). unfold part in *. simpl in *. lia.
        -- specialize (HH i j). unfold part in *. simpl in *. apply HH. lia.
      * intros HH i j Hij. specialize (HH (S i) (S j)). unfold part in *. simpl in *. apply HH. lia.
Qed.
Lemma valid_part_iff l : is_valid_part l = true <->
  (forall j, (j < length l)%nat -> 0 <= part l j) /\
  (forall i j, (i <= j < length l)%nat -> part l j <= part l i).
Proof.
  unfold is_valid_part. rewrite <- non_increasing_iff.
  assert (E : forallb (fun x => 0 <=? x) l = true <-> forall j, (j < length l)%nat -> 0 <= part l j).
  { rewrite forallb_forall. split.
    - intros H j Hj. apply Z.leb_le. apply H. apply nth_In. auto.
    - intros H x Hx. apply Z.leb_le. apply (In_nth _ _ 0) in Hx. destruct Hx as (j & Hj & <-). apply H; auto. }
  rewrite <- E. destruct (forallb _ l), (is_non_increasing l); simpl; intuition congruence.
Qed.
Lemma clip_char l : exists c, l = part_clip l ++ repeat 0 c /\ forall a, part_clip l <> a ++ [0].
Proof.
  destruct (part_clip_spec l) as (c & Hc & E). exists (Z.to_nat c). split; [exact E|].
  clear. induction l as [|x l IH]; cbn [part_clip].
  - intros [|? ?]; discriminate.
  - destruct (part_clip l) as [|y t].
    + destruct (Z.eqb_spec x 0); intros [|? [|? ?]]; try discriminate. intros E; inversion E; lia.
    + intros [|z a] E; inversion E. apply (IH a); auto.
Qed.
Lemma clip_idem l : part_clip (part_clip l) = part_clip l.
Proof.
  destruct (clip_char (part_clip l)) as (c & E & _). destruct (clip_char l) as (_ & _ & H). destruct c as [|c].
  - simpl in E. rewrite app_nil_r in E. auto.
  - exfalso. replace (S c) with (c + 1)%nat in E by lia. rewrite repeat_app, app_assoc in E. simpl repeat in E. exact (H _ E).
Qed.
Lemma in_range_iff l r c : 0 <= r -> 0 <= c -> is_partition l ->
  exists b, is_in_range l r c = Ok b /\ (b = true <-> in_box r c l).
Proof.
  intros Hr Hc [H1 H2]. unfold is_in_range. replace ((r <? 0) || (c <? 0)) with false by (destruct (Z.ltb_spec r 0), (Z.ltb_spec c 0); auto; lia).
  destruct l as [|x l].
  - exists true. split; auto. split; auto. intros _. split; [split; auto|]. unfold part. simpl. lia.
  - destruct (Z.ltb_spec r (zlen (x :: l))); [eexists; split; [reflexivity|]; split; [discriminate|]; intros (_ & H' & _); unfold zlen in *; lia|].
    destruct (Z.ltb_spec c x); [eexists; split; [reflexivity|]; split; [discriminate|]; intros (_ & _ & H'); unfold part in H'; simpl in H'; lia|].
    exists true. split; auto. split; auto. intros _. split; [split; auto|]. unfold part, zlen in *; simpl in *; lia.
Qed.
Lemma in_range_neg l r c : r < 0 \/ c < 0 -> is_in_range l r c = Err ValueError.
Proof. intros H. unfold is_in_range. destruct (Z.ltb_spec r 0), (Z.ltb_spec c 0); auto; lia. Qed.
Lemma mk_partition_iff l r : mk_partition l = Ok r <-> (is_valid_part l = true /\ r = l).
Proof. unfold mk_partition. destruct (is_valid_part l); simpl; intuition congruence. Qed.
Lemma in_range_zeros : exists l r c, is_valid_part l = true /\
  in_box r c (part_clip l) /\ is_in_range l r c = Ok false.
Proof.
  exists [0; 0], 1, 1. split; [reflexivity|]. split; [|reflexivity].
  split; [split; [intros j Hj; simpl in Hj; lia|]|]; [|unfold part; simpl; lia]. intros [|j]; unfold part; simpl; lia.
Qed.
