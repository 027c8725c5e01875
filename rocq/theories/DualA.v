(** The Pieri operators of Gr(m,n), quantum ones included, are self-adjoint for
    the pairing of classes with their dual classes. *)

From Coq Require Import ZArith List Lia Bool Permutation QArith Qcanon Setoid Morphisms.
From Verif Require Import Py OrderFacts PyFacts ModelPart ModelQcalc ModelPoly ModelStr ModelGr Spec
  PolyFacts SuppFacts OpTheory Enum FillFacts PartFacts PieriA QPieriA CylA Sys Sys2 RingA FactsA.
Import ListNotations.
Open Scope Z_scope.

Section A.
Variables m k : Z.
Hypothesis Hm : 1 <= m.
Hypothesis Hk : 0 <= k.
Notation V := (in_box m k).

(** cyclic interlacing, part by part *)
Lemma qint_part l w : l <> [] -> (qint l w <-> length w = length l /\
  (forall j, (j < length l)%nat -> part w j <= part l j - 1) /\
  (forall j, (S j < length l)%nat -> part l (S j) - 1 <= part w j) /\ 0 <= part w (length l - 1)).
Proof.
  destruct l as [|x t]; [congruence|]. intros _. cbn [qint]. rewrite intl_part, app_length, map_length. cbn [length].
  assert (E1 : forall j, (j < length t)%nat -> part (map (fun y => y - 1) t ++ [0]) j = part t j - 1).
  { intros j Hj. unfold part. rewrite app_nth1 by (rewrite map_length; lia).
    rewrite (nth_indep _ 0 ((fun y => y - 1) 0)) by (rewrite map_length; lia). apply (map_nth (fun y => y - 1)). }
  assert (E2 : part (map (fun y => y - 1) t ++ [0]) (length t) = 0).
  { unfold part. rewrite app_nth2 by (rewrite map_length; lia). rewrite map_length, Nat.sub_diag. reflexivity. }
  assert (E3 : forall j, part (x :: t) (S j) = part t j) by reflexivity.
  split.
  - intros (A & B & C & D). split; [lia|]. split; [|split].
    + intros [|j] Hj; [apply D; destruct t; discriminate|]. rewrite E3, <- E1 by lia. apply C. lia.
    + intros j Hj. rewrite E3, <- E1 by lia. apply B. lia.
    + replace (S (length t) - 1)%nat with (length t) by lia. rewrite <- E2. apply B. lia.
  - intros (A & B & C & D). split; [lia|]. split; [|split].
    + intros j Hj. destruct (Nat.eq_dec j (length t)) as [->|Hne].
      * rewrite E2. replace (S (length t) - 1)%nat with (length t) in D by lia. exact D.
      * rewrite E1 by lia. apply C. lia.
    + intros j Hj. rewrite E1 by lia. rewrite <- E3. apply B. lia.
    + intros _. apply (B 0%nat). lia.
Qed.

Lemma qedge_dual x y : V x -> V y -> zlen x = m -> qint x (cw k (padm m y)) -> zlen y = m /\ qint y (cw k (padm m x)).
Proof.
  intros Hx Hy Lx. pose proof (in_box_wbox _ _ _ Hy) as Wy. pose proof (in_box_wbox _ _ _ Hx) as Wx.
  assert (Ly' : length (padm m y) = Z.to_nat m) by (destruct Wy as [_ W]; unfold zlen in W; lia).
  assert (Lx' : length (padm m x) = Z.to_nat m) by (destruct Wx as [_ W]; unfold zlen in W; lia).
  assert (Lxn : length x = Z.to_nat m) by (unfold zlen in Lx; lia).
  assert (Nx : x <> []) by (destruct x; cbn in *; [lia|discriminate]).
  rewrite qint_part by auto. intros (_ & B & C & _).
  assert (B' : forall j, (j < Z.to_nat m)%nat -> k - part y (Z.to_nat m - 1 - j) <= part x j - 1).
  { intros j Hj. specialize (B j ltac:(lia)). rewrite part_cw, part_padm, Ly' in B by lia. exact B. }
  assert (C' : forall j, (S j < Z.to_nat m)%nat -> part x (S j) - 1 <= k - part y (Z.to_nat m - 1 - j)).
  { intros j Hj. specialize (C j ltac:(lia)). rewrite part_cw, part_padm, Ly' in C by lia. exact C. }
  destruct Hx as (Px & _ & Kx). destruct Hy as (Py & My & Ky).
  assert (Py0 : 1 <= part y (Z.to_nat m - 1)).
  { specialize (B' 0%nat ltac:(lia)). replace (Z.to_nat m - 1 - 0)%nat with (Z.to_nat m - 1)%nat in B' by lia. lia. }
  assert (Ly : length y = Z.to_nat m).
  { destruct (le_lt_dec (length y) (Z.to_nat m - 1)) as [L|L]; [|lia]. unfold part in Py0. rewrite nth_overflow in Py0 by auto. lia. }
  split; [unfold zlen; lia|]. apply qint_part; [destruct y; cbn in *; [lia|discriminate]|]. rewrite Ly.
  split; [unfold cw; rewrite rev_length, map_length; auto|]. split; [|split].
  - intros j Hj. rewrite part_cw, part_padm, Lx' by lia. specialize (B' (Z.to_nat m - 1 - j)%nat ltac:(lia)).
    replace (Z.to_nat m - 1 - (Z.to_nat m - 1 - j))%nat with j in B' by lia. lia.
  - intros j Hj. rewrite part_cw, part_padm, Lx' by lia. specialize (C' (Z.to_nat m - 2 - j)%nat ltac:(lia)).
    replace (S (Z.to_nat m - 2 - j)) with (Z.to_nat m - 1 - j)%nat in C' by lia.
    replace (Z.to_nat m - 1 - (Z.to_nat m - 2 - j))%nat with (S j) in C' by lia. lia.
  - rewrite part_cw, part_padm, Lx' by lia. replace (Z.to_nat m - 1 - (Z.to_nat m - 1))%nat with 0%nat by lia. lia.
Qed.

Lemma adjAq qq i d x y : IA k i -> V x -> V y ->
  coef (P (piA m k qq) i x) (qS d (dualA m k y)) = coef (P (piA m k qq) i y) (qS d (dualA m k x)).
Proof.
  intros Hi.
  assert (G : forall x y, V x -> V y -> coef (P (piA m k qq) i x) (qS d (dualA m k y)) =
    if in_dec pair_dec (d, cw k (padm m y)) (EA m k qq i (padm m x)) then 1%Qc else 0%Qc).
  { clear x y. intros x y Hx Hy. pose proof (in_box_wbox _ _ _ Hx) as Wx. pose proof (in_box_wbox _ _ _ Hy) as Wy.
    rewrite (P_enum m k Hm Hk qq i x Hx (IA_dom k qq i Hi) (qS d (dualA m k y))). rewrite coef_phi, phi_msum, map_fold.
    apply delta_sum; [apply EA_nodup|]. intros [e w] Hw. pose proof (EA_wbox m k Hm Hk qq i (padm m x) _ Wx Hw) as Ww. cbn [snd] in Ww.
    destruct (pair_dec _ _) as [E|E].
    - inversion E; subst. rewrite (proj2 (mono_eqb_perm _ _)); auto.
    - rewrite (proj2 (mono_eqb_false _ _)); auto. intros HP. apply Sys.qS_inj in HP. cbn [fst snd] in HP. destruct HP as [-> Ec]. apply E. f_equal.
      apply part_clip_inj; auto. rewrite zlen_cw. destruct Wy as [_ ->]. apply Ww. }
  intros Hx Hy. rewrite !G by auto.
  assert (Imp : forall x y, V x -> V y -> In (d, cw k (padm m y)) (EA m k qq i (padm m x)) -> In (d, cw k (padm m x)) (EA m k qq i (padm m y))).
  { clear x y Hx Hy. intros x y Hx Hy. pose proof (in_box_wbox _ _ _ Hx) as Wx. pose proof (in_box_wbox _ _ _ Hy) as Wy.
    rewrite !EA_in by auto. rewrite !zsum_cw, !zsum_padm, !(clip_padm m k) by auto.
    assert (Zx : zlen (padm m x) = m) by apply Wx. assert (Zy : zlen (padm m y) = m) by apply Wy. rewrite Zx, Zy.
    intros [(A & B & C)|(A & B & C & D & E)].
    - left. split; auto. split; [|lia]. rewrite (intl_cw m k), cw_cw in B by auto using wbox_cw. exact B.
    - right. destruct (qedge_dual x y Hx Hy C D) as (F1 & F2). repeat split; auto. lia. }
  destruct (in_dec pair_dec _ _) as [A|A], (in_dec pair_dec _ (EA m k qq i (padm m y))) as [B|B]; auto; exfalso; auto.
Qed.
End A.
