(** Poincare duality of the isotropic Grassmannians, part 1: the dual class of a
    word, and the symmetry of the transfer matrices. *)

From Coq Require Import ZArith List Lia Bool Permutation QArith Qcanon.
From Verif Require Import Py OrderFacts IndexC IndexB DualFacts ApiIndex PyFacts ModelPart ModelQcalc ModelPoly ModelStr ModelGr Spec SpecPieri
  PolyFacts SuppFacts Enum FillFacts PartFacts ConjFacts PairFacts CompsFacts CompsBound PieriA QPieriA WSum PieriCoef OpTheory Sys Sys2
  Word Transfer Extract CoefSys CommC CommB RecBCD RingC RingB.
Import ListNotations.
Open Scope Z_scope.


(** ** dual words *)
Definition swq (x : letter) : letter := match x with LE => LE | LR => LL | LL => LR end.
Definition wdual (w : word) : word := map swq w.
Lemma wdual_wdual w : wdual (wdual w) = w.
Proof. induction w as [|x w IH]; auto. cbn [wdual map]. fold (wdual w) (wdual (wdual w)). rewrite IH. destruct x; reflexivity. Qed.
Lemma wdual_len w : length (wdual w) = length w.
Proof. apply map_length. Qed.
Lemma wdual_cE w : cE (wdual w) = cE w.
Proof. induction w as [|x w IH]; auto. cbn [wdual map cE]. fold (wdual w). rewrite IH. destruct x; reflexivity. Qed.
Lemma wdual_ws k n w : In w (wset k n) -> In (wdual w) (wset k n).
Proof. rewrite !in_wset, wdual_len, wdual_cE. auto. Qed.

(** the index set of a word *)
Fixpoint ixw (w : word) : list Z :=
  match w with
  | [] => []
  | LR :: w' => 1 :: map Z.succ (ixw w')
  | LL :: w' => map Z.succ (ixw w') ++ [2 * zlen w' + 2]
  | LE :: w' => map Z.succ (ixw w')
  end.
Lemma rd_succ N p : rd (N + 2) (map Z.succ p) = map Z.succ (rd N p).
Proof. unfold rd. rewrite <- map_rev, !map_map. apply map_ext. intros x. lia. Qed.
Lemma rd_ixw w : rd (2 * zlen w) (ixw w) = ixw (wdual w).
Proof.
  induction w as [|x w IH]; [reflexivity|]. rewrite zlen_cons. replace (2 * (zlen w + 1)) with (2 * zlen w + 2) by lia.
  assert (Ez : zlen (wdual w) = zlen w) by (unfold zlen; rewrite wdual_len; auto).
  cbn [wdual map]. fold (wdual w). destruct x; cbn [ixw swq].
  - rewrite rd_succ, IH. reflexivity.
  - rewrite <- IH, Ez, <- rd_succ. unfold rd. cbn [rev]. rewrite map_app. cbn [map]. f_equal. f_equal. lia.
  - rewrite <- IH, <- rd_succ. unfold rd. rewrite rev_app_distr. cbn [rev app map]. f_equal. lia.
Qed.
Lemma ixw_len w : zlen (ixw w) = zlen w - cE w.
Proof.
  induction w as [|x w IH]; [reflexivity|]. rewrite zlen_cons. destruct x; cbn [ixw cE isE].
  - unfold zlen in *. rewrite map_length. lia.
  - rewrite zlen_cons. unfold zlen in *. rewrite map_length. lia.
  - unfold zlen in *. rewrite app_length, map_length. cbn [length]. lia.
Qed.

Lemma part_cons_S x l j : part (x :: l) (S j) = part l j.
Proof. reflexivity. Qed.
Lemma cnt_S f j : cnt f (S j) = (if f 0%nat then 1 else 0) + cnt (fun i => f (S i)) j.
Proof. induction j as [|j IH]; cbn [cnt] in *; lia. Qed.

(** the rows of a word determine the same set *)
Lemma idxC_ixw w : idxC (zlen w) (cE w) (zlen w - cE w) (wp 0 w) = ixw w.
Proof.
  assert (G : forall w, length (idxC (zlen w) (cE w) (zlen w - cE w) (wp 0 w)) = length (ixw w)).
  { intros u. pose proof (ixw_len u). pose proof (cE_range u). rewrite length_idxC by lia. unfold zlen in *. lia. }
  induction w as [|x w IH]; [reflexivity|]. apply list_part_eq; [apply G|]. intros j Hj. rewrite G in Hj.
  pose proof (ixw_len (x :: w)) as HL. pose proof (ixw_len w) as HL'. rewrite zlen_cons in HL. pose proof (cE_range w) as HE. pose proof (cE_range (x :: w)) as HE'.
  rewrite zlen_cons in *.
  assert (Hjm : (j < Z.to_nat (zlen w + 1 - cE (x :: w)))%nat) by (unfold zlen in *; lia).
  rewrite part_idxC by lia.
  assert (HI : forall i, (i < Z.to_nat (zlen w - cE w))%nat -> part (ixw w) i = zlen w + cE w + 1 - part (wp 0 w) i + cC (cE w) (wp 0 w) i).
  { intros i Hi. rewrite <- IH, part_idxC by lia. reflexivity. }
  destruct (wp0_kstrict w) as ((Hp & Hr & Hc) & Hs).
  destruct x.
  - cbn [cE isE ixw] in *. rewrite part_map_in by (unfold zlen in *; lia). rewrite HI by lia.
    assert (Hw : forall i, (i <= j)%nat -> part (wp 0 (LE :: w)) i = part (wp 0 w) i + 1).
    { intros i Hi. cbn [wp]. rewrite <- (Nat2Z.id i), part_map_succ by (auto; unfold zlen in *; lia). destruct (Z.ltb_spec (Z.of_nat i) (zlen w - cE w)); [rewrite Nat2Z.id; auto|lia]. }
    rewrite Hw by lia. unfold cC. rewrite (cnt_ext _ (fun i => RC (cE w) (wp 0 w) i j)); [lia|].
    intros i Hi. unfold RC. rewrite !Hw by lia. destruct (Z.leb_spec (part (wp 0 w) i + 1 + (part (wp 0 w) j + 1)) (2 * (1 + cE w) + Z.of_nat j - Z.of_nat i)),
      (Z.leb_spec (part (wp 0 w) i + part (wp 0 w) j) (2 * cE w + Z.of_nat j - Z.of_nat i)); auto; lia.
  - cbn [cE isE ixw] in *. rewrite wp_LR. destruct j as [|j].
    + change (part (1 :: map Z.succ (ixw w)) 0) with 1. change (part (zlen w + 1 + cE w :: wp 0 w) 0) with (zlen w + 1 + cE w). change (cC (0 + cE w) (zlen w + 1 + cE w :: wp 0 w) 0) with 0. lia.
    + rewrite !part_cons_S. cbn [length] in Hj. rewrite map_length in Hj. rewrite part_map_in, HI by (unfold zlen in *; lia).
      unfold cC. rewrite cnt_S. replace (RC (0 + cE w) (zlen w + 1 + cE w :: wp 0 w) 0 (S j)) with false.
      2:{ symmetry. unfold RC. rewrite part_cons_S. change (part (zlen w + 1 + cE w :: wp 0 w) 0) with (zlen w + 1 + cE w). pose proof (is_partition_nonneg _ j Hp). apply Z.leb_gt. unfold zlen in *; lia. }
      rewrite (cnt_ext _ (fun i => RC (cE w) (wp 0 w) i j)); [lia|]. intros i Hi. unfold RC. rewrite !part_cons_S. f_equal. lia.
  - cbn [cE isE ixw] in *. cbn [wp]. destruct (Nat.lt_ge_cases j (length (ixw w))) as [Hlt|Hge].
    + unfold part at 2. rewrite app_nth1 by (rewrite map_length; auto). fold (part (map Z.succ (ixw w)) j). rewrite part_map_in, HI by (unfold zlen in *; lia). 
      change (0 + cE w) with (cE w). lia.
    + rewrite app_length, map_length in Hj. cbn [length] in Hj. assert (Ej : j = length (ixw w)) by lia. clear Hge Hj.
      unfold part at 2. rewrite app_nth2 by (rewrite map_length; lia). rewrite map_length, Ej, Nat.sub_diag. cbn [nth]. rewrite <- Ej.
      rewrite (part_over (wp 0 w) j) by (unfold zlen in *; lia). unfold cC. rewrite cnt_all; [unfold zlen in *; lia|].
      intros i Hi. unfold RC. rewrite (part_over (wp 0 w) j) by (unfold zlen in *; lia). apply Z.leb_le. change (0 + cE w) with (cE w).
      assert (HB : cE w < part (wp 0 w) i -> part (wp 0 w) i + Z.of_nat i <= zlen w + cE w).
      { intros Hgt. destruct i as [|i]; [lia|]. pose proof (wp0_kstrict w) as HK.
        pose proof (l_strict (zlen w) (cE w) (zlen w - cE w) (wp 0 w) HK 0 (S i)) as HS. destruct Hp as [Hp1 Hp2]. specialize (Hp2 i). replace (S i - 1)%nat with i in HS by lia. lia. }
      unfold zlen in *. lia.
Qed.

Lemma dzC_word k n w : 0 <= k <= n -> In w (wset k n) ->
  dz (idxC n k (n - k)) (prtC n k (n - k)) (rd (2 * n)) (wp 0 w) = wp 0 (wdual w).
Proof.
  intros Hk Hw. pose proof (wset_zlen k n Hk w Hw) as Hz. pose proof (wdual_ws k n w Hw) as Hd. pose proof (wset_zlen k n Hk _ Hd) as Hzd.
  apply in_wset in Hw. apply in_wset in Hd. unfold dz.
  pose proof (idxC_ixw w) as E1. pose proof (idxC_ixw (wdual w)) as E2. rewrite Hz in E1. rewrite Hzd in E2. destruct Hw as [_ Ew]. destruct Hd as [_ Ed]. rewrite Ew in E1. rewrite Ed in E2.
  rewrite E1, <- Hz, rd_ixw, <- E2, Hz. apply prtC_idxC; try lia. pose proof (wp0_kstrict (wdual w)) as HK. rewrite Hzd, Ed in HK. exact HK.
Qed.

(** ** the symmetry of the walks *)
Definition std (a : st) : st := match a with S1 => S2 | S2 => S1 | _ => a end.
Lemma nxt_dual a x y : nxt (std a) (swq y) (swq x) = match nxt a x y with Some b => Some (std b) | None => None end.
Proof. destruct a, x, y; reflexivity. Qed.
Lemma dg_dual a x y : dg (std a) (swq y) (swq x) = dg a x y.
Proof. destruct a, x, y; reflexivity. Qed.
Lemma ex_dual a x y : ex (std a) (swq y) (swq x) = ex a x y.
Proof. destruct a, x, y; reflexivity. Qed.
Lemma walk_dual m : forall a w v, walk m (std a) (wdual v) (wdual w) =
  match walk m a w v with Some (g, x, b) => Some (g, x, std b) | None => None end.
Proof.
  induction m as [|m IH]; intros a w v; [reflexivity|]. destruct v as [|y v], w as [|x w]; try reflexivity.
  cbn [wdual map walk]. fold (wdual v) (wdual w). rewrite nxt_dual, dg_dual, ex_dual. destruct (nxt a x y) as [a'|]; auto.
  rewrite IH. destruct (walk m a' w v) as [[[g x0] b]|]; reflexivity.
Qed.
Lemma wterm_dual f c sh m a w v : f S1 = f S2 -> wterm f c sh (walk m (std a) (wdual v) (wdual w)) = wterm f c sh (walk m a w v).
Proof.
  intros Hf. rewrite walk_dual. destruct (walk m a w v) as [[[g x] b]|]; [|reflexivity].
  cbn [wterm]. destruct b; cbn [std]; congruence.
Qed.

Lemma kerC_dual qq n d w v : kerC qq n d (wdual v) (wdual w) = kerC qq n d w v.
Proof.
  destruct d as [|[|d]]; cbn [kerC]; auto.
  - apply (wterm_dual fC 1 0 (Z.to_nat n) S0); reflexivity.
  - destruct qq; auto. apply (wterm_dual fC (/ two) 1 (Z.to_nat n) S3); reflexivity.
Qed.
Lemma tabB_dual qq k e x y : tabB qq k e (swq y) (swq x) = match tabB qq k e x y with Some (a, sh) => Some (std a, sh) | None => None end.
Proof. unfold tabB. destruct qq; [destruct (k =? 0)|]; destruct e as [|[|[|e]]], x, y; reflexivity. Qed.
Lemma kerB_dual qq k n d w v : kerB qq k n d (wdual v) (wdual w) = kerB qq k n d w v.
Proof.
  unfold kerB, kerT. destruct w as [|x w], v as [|y v]; try reflexivity. cbn [wdual map]. rewrite tabB_dual.
  destruct (tabB qq k d x y) as [[a sh]|]; auto. apply wterm_dual. reflexivity.
Qed.

(** ** the Pieri operators are self-adjoint *)
Section Adj.
Variables (k n : Z).
Hypothesis Hk : 0 <= k <= n.
Notation V := (kstrict_in k (n - k) (n + k)).
Definition dualC (l : list Z) : list Z := dz (idxC n k (n - k)) (prtC n k (n - k)) (rd (2 * n)) l.

Lemma dualC_V l : V l -> V (dualC l).
Proof.
  intros Hl. apply (wset_V k n Hk) in Hl. destruct Hl as (w & Hw & <-). unfold dualC. rewrite dzC_word by auto.
  apply (wset_V k n Hk). exists (wdual w). split; auto. apply wdual_ws; auto.
Qed.
Lemma dualC_dualC l : V l -> dualC (dualC l) = l.
Proof.
  intros Hl. apply (wset_V k n Hk) in Hl. destruct Hl as (w & Hw & <-). unfold dualC. rewrite dzC_word by auto.
  rewrite dzC_word by (auto using wdual_ws). rewrite wdual_wdual. reflexivity.
Qed.
Lemma adj_words pi i D (Wt : nat -> word -> word -> Qc) :
  (forall w, In w (wset k n) -> wcoefs (wp 0) (wset k n) D (P pi i (wp 0 w)) (fun d v => Wt d w v)) ->
  (forall d w v, Wt d (wdual v) (wdual w) = Wt d w v) ->
  forall d x y, V x -> V y -> coef (P pi i x) (qS d (dualC y)) = coef (P pi i y) (qS d (dualC x)).
Proof.
  intros HW HS d x y Hx Hy. apply (wset_V k n Hk) in Hx, Hy. destruct Hx as (w & Hw & <-). destruct Hy as (v & Hv & <-).
  unfold dualC. rewrite !dzC_word by auto.
  rewrite (proj1 (HW w Hw) d (wdual v)) by (apply wdual_ws; auto). rewrite (proj1 (HW v Hv) d (wdual w)) by (apply wdual_ws; auto).
  rewrite <- (HS d v (wdual w)), wdual_wdual. reflexivity.
Qed.
Lemma adjC qq i d x y : 0 <= i <= n + k -> V x -> V y ->
  coef (P (piC k n qq) i x) (qS d (dualC y)) = coef (P (piC k n qq) i y) (qS d (dualC x)).
Proof.
  intros Hi. apply (adj_words (piC k n qq) i 2 (fun d w v => co (kerC qq n d w v) (Z.to_nat i))).
  - intros w Hw. apply piC_wcoefs; auto.
  - intros e w v. cbv beta. rewrite kerC_dual. reflexivity.
Qed.
Lemma adjB qq i d x y : okB qq k n -> 0 <= i -> V x -> V y ->
  coef (P (piB k n qq) i x) (qS d (dualC y)) = coef (P (piB k n qq) i y) (qS d (dualC x)).
Proof.
  intros Hok Hi. apply (adj_words (piB k n qq) i 3 (fun d w v => cB k i * co (kerB qq k n d w v) (Z.to_nat i))%Qc).
  - intros w Hw. apply piB_wcoefs; auto.
  - intros e w v. cbv beta. rewrite kerB_dual. reflexivity.
Qed.
End Adj.
