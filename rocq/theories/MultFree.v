(** Products without multiplicities on Gr(m,n): the lemmas behind PropsFree.v. *)

From Coq Require Import ZArith List Lia Bool Permutation QArith Qcanon Setoid Morphisms.
From Verif Require Import Py OrderFacts PyFacts ModelPart ModelQcalc ModelPoly ModelStr ModelGr Spec SpecMisc SpecFree
  PolyFacts SuppFacts OpTheory Enum FillFacts PartFacts PieriA QPieriA CylA WSum Sys Sys2 SysMap RingA FactsA
  SysApi ApiA ApiLR ConjFacts VertA ConjRing GrInv ApiConvA ApiVert ApiGr Check Seidel.
Import ListNotations.
Open Scope Z_scope.

Lemma sum_free r R : is_sum_of r R -> multiplicity_free r.
Proof.
  intros [H1 H2] mo. destruct (Qc_eq_dec (coef r mo) 0%Qc) as [E|E]; auto. right. destruct (H2 mo E) as (d & mu & HR & HP).
  rewrite (coef_perm r _ _ HP). auto.
Qed.
Lemma free_peq r r' : peq r r' -> multiplicity_free r' -> multiplicity_free r.
Proof. intros E H mo. rewrite (E mo). apply H. Qed.

Section S.
Context (m n : Z) (g : gr) (Hg : Grassmannian m n = Ok g) (Hm : 1 <= m < n).
Let k := n - m.
Notation box := (in_box m (n - m)).
Definition free (lam : list Z) : Prop := forall mu, box mu -> exists r, qmult g (pS lam) (pS mu) = Ok r /\ lin_comb box r /\ multiplicity_free r.

Lemma prod_ok lam mu : box lam -> box mu -> exists r, qmult g (pS lam) (pS mu) = Ok r /\ lin_comb box r.
Proof.
  intros Hl Hmu. pose proof Hg as Hg'. apply gr_inv in Hg'. destruct Hg' as (_ & Hk & ->).
  destruct (qmult_MA m (n - m) ltac:(lia) Hk lam mu Hl Hmu) as (r & E & Pr & L). eauto.
Qed.
Lemma free_row i : 1 <= i <= n - m -> free [i].
Proof.
  intros Hi mu Hmu. destruct (c43_api m n g i (pS mu) Hg ltac:(lia) Hi) as [_ (r & r' & E & E' & Er)]; [apply lin_comb_pS; auto|].
  destruct (c02 m n g i mu Hg ltac:(lia) Hmu Hi) as (p & Ep & Sp). rewrite E' in Ep. inversion Ep; subst p.
  exists r. split; auto. split; [|apply (free_peq _ r'); auto; eapply sum_free; eauto].
  intros mo Hmo. rewrite (Er mo) in Hmo. destruct Sp as [_ S2]. destruct (S2 mo Hmo) as (d & nu & (Hn & _) & HP). eauto.
Qed.
Lemma free_down R lam lam' a rl :
  (forall nu, box nu -> exists r b nu', qmult g (pS R) (pS nu) = Ok r /\ is_sum_of r (fun e kap => e = b /\ kap = nu')) ->
  full_rectangle m n R -> box lam -> qmult g (pS R) (pS lam) = Ok rl -> is_sum_of rl (fun e kap => e = a /\ kap = lam') ->
  free lam' -> free lam.
Proof.
  intros HT HR Hl El Sl HF mu Hmu. destruct (prod_ok lam mu Hl Hmu) as (r & Er & Lr). exists r. split; auto. split; auto.
  intros mo. destruct (Qc_eq_dec (coef r mo) 0%Qc) as [E|E]; auto. destruct (Lr mo E) as (d & nu & Hn & HP). rewrite (coef_perm r _ _ HP) in *. clear mo HP.
  destruct (HT nu Hn) as (rn & b & nu' & En & Sn).
  destruct (c73_sym m n g Hg Hm R lam mu nu lam' nu' a b rl rn HR Hl Hmu Hn El Sl En Sn) as (s & s' & Es & Es' & H1 & H2 & _).
  rewrite Er in Es. inversion Es; subst s. destruct (HF mu Hmu) as (t & Et & _ & Ft). rewrite Es' in Et. inversion Et; subst t.
  destruct (Nat.lt_ge_cases (d + b) a) as [L|L]; [rewrite (H2 d L); auto|].
  rewrite (H1 d (d + b - a)%nat ltac:(lia)). apply Ft.
Qed.

Lemma row_full : full_rectangle m n [n - m].
Proof. left. exists 1. split; [lia|reflexivity]. Qed.
Lemma col_full : full_rectangle m n (repeat 1 (Z.to_nat m)).
Proof. right. exists 1. split; [lia|reflexivity]. Qed.
Lemma row_T nu : box nu -> exists r b nu', qmult g (pS [n - m]) (pS nu) = Ok r /\ is_sum_of r (fun e kap => e = b /\ kap = nu').
Proof.
  intros Hn. destruct (c54_row m n g nu Hg Hm Hn) as (r & E & H1 & H2). pose proof Hn as (_ & Ln & _).
  destruct (Z.eq_dec (Z.of_nat (length nu)) m) as [EL|EL]; [destruct (H2 EL) as (mu & _ & _ & HS); eauto|].
  specialize (H1 ltac:(lia)). eauto 6.
Qed.
Lemma col_T nu : box nu -> exists r b nu', qmult g (pS (repeat 1 (Z.to_nat m))) (pS nu) = Ok r /\ is_sum_of r (fun e kap => e = b /\ kap = nu').
Proof.
  intros Hn. destruct (c54_col m n g nu Hg Hm Hn) as (r & E & H1 & H2). pose proof Hn as (_ & _ & Ln).
  destruct (Z.eq_dec (part nu 0) (n - m)) as [EL|EL]; [specialize (H2 EL); eauto 6|].
  destruct (H1 ltac:(lia)) as (mu & _ & _ & HS). eauto.
Qed.
(** one step down each way *)
Lemma step_short lam : box lam -> Z.of_nat (length lam) < m -> free (n - m :: lam) -> free lam.
Proof.
  intros Hl HL HF. destruct (c54_row m n g lam Hg Hm Hl) as (r & E & H1 & _). eapply (free_down [n - m]); eauto using row_T, row_full.
Qed.
Lemma step_long lam : box lam -> Z.of_nat (length lam) = m ->
  (forall mu, box mu -> (forall j, Z.of_nat j < m -> part mu j = part lam j - 1) -> free mu) -> free lam.
Proof.
  intros Hl HL HF. destruct (c54_row m n g lam Hg Hm Hl) as (r & E & _ & H2). destruct (H2 HL) as (mu & Hmu & HP & HS).
  eapply (free_down [n - m]); eauto using row_T, row_full.
Qed.
Lemma step_wide lam : box lam -> part lam 0 = n - m -> free (tl lam) -> free lam.
Proof.
  intros Hl HL HF. destruct (c54_col m n g lam Hg Hm Hl) as (r & E & _ & H2). eapply (free_down (repeat 1 (Z.to_nat m))); eauto using col_T, col_full.
Qed.

Lemma free_nil : free [].
Proof.
  apply step_short; [split; [split; [cbn; lia|intros j; rewrite !(nth_overflow []) || idtac; unfold part; destruct j; cbn; lia]|cbn; lia]|cbn; lia|].
  apply free_row. lia.
Qed.
Lemma box_nil_or lam : box lam -> part lam 1 <= 0 -> lam = [] \/ exists a, lam = [a] /\ 1 <= a <= n - m.
Proof.
  intros ((HP & HD) & HL & HB) H. destruct lam as [|a [|b t]]; auto; right.
  - exists a. split; auto. specialize (HP 0%nat ltac:(cbn; lia)). unfold part in *. cbn in *. lia.
  - exfalso. specialize (HP 1%nat ltac:(cbn; lia)). lia.
Qed.
Lemma free_one lam : box lam -> part lam 1 <= 0 -> free lam.
Proof. intros Hl H. destruct (box_nil_or lam Hl H) as [->|(a & -> & Ha)]; [apply free_nil|apply free_row; auto]. Qed.
Lemma part_short lam j : (length lam <= j)%nat -> part lam j = 0.
Proof. intros H. unfold part. apply nth_overflow. auto. Qed.
Lemma box_decr lam i j : box lam -> (i <= j)%nat -> part lam j <= part lam i.
Proof. intros ((_ & HD) & _) H. induction H; [lia|]. specialize (HD m0). lia. Qed.
Lemma cons_box lam : box lam -> Z.of_nat (length lam) < m -> box (n - m :: lam).
Proof.
  intros ((HP & HD) & HL & HB) H. split; [split|].
  - intros [|j] Hj; [cbn; lia|]. apply (HP j). cbn in Hj. lia.
  - intros [|j]; [exact HB|apply HD].
  - split; [cbn; lia|unfold part; cbn; lia].
Qed.
Lemma tl_box lam : box lam -> box (tl lam).
Proof.
  intros HB. destruct lam as [|a t]; auto. destruct HB as ((HP & HD) & HL & HB). cbn in HL. split; [split|].
  - intros j Hj. apply (HP (S j)). cbn. cbn in Hj. lia.
  - intros j. apply (HD (S j)).
  - split; [cbn; lia|]. specialize (HD 0%nat). unfold part in *. cbn in *. lia.
Qed.

Lemma near_first N lam : box lam -> part lam 0 <= Z.of_nat N ->
  (forall i j, 1 <= Z.of_nat i < m -> 1 <= Z.of_nat j < m -> part lam i = part lam j) -> free lam.
Proof.
  revert lam. induction N as [|N IH]; intros lam Hl HN HR.
  - apply free_one; auto. pose proof (box_decr lam 0 1 Hl ltac:(lia)). lia.
  - pose proof Hl as (_ & HL & _). destruct (Z.eq_dec (Z.of_nat (length lam)) m) as [E|E].
    + apply step_long; auto. intros mu Hmu HP. apply IH; auto; [rewrite HP; lia|]. intros i j Hi Hj. rewrite !HP by lia. rewrite (HR i j); auto.
    + apply free_one; auto. destruct (Z.eq_dec m 1) as [E1|E1]; [rewrite part_short; lia|].
      rewrite (HR 1%nat (Z.to_nat (m - 1))) by lia. rewrite part_short; lia.
Qed.
Lemma near_last N lam : box lam -> part lam 0 <= Z.of_nat N ->
  (forall i j, Z.of_nat i < m - 1 -> Z.of_nat j < m - 1 -> part lam i = part lam j) -> free lam.
Proof.
  revert lam. induction N as [|N IH]; intros lam Hl HN HR.
  - apply free_one; auto. pose proof (box_decr lam 0 1 Hl ltac:(lia)). lia.
  - pose proof Hl as (_ & HL & _). destruct (Z.eq_dec (Z.of_nat (length lam)) m) as [E|E].
    + apply step_long; auto. intros mu Hmu HP. apply IH; auto; [rewrite HP; lia|]. intros i j Hi Hj. rewrite !HP by lia. rewrite (HR i j); auto.
    + apply step_short; [auto|lia|]. assert (HB : box (n - m :: lam)) by (apply cons_box; auto; lia).
      apply (near_first (Z.to_nat (n - m))); auto; [unfold part; cbn; lia|].
      intros [|i] [|j] Hi Hj; try lia. apply (HR i j); lia.
Qed.
Lemma near_full lam : box lam -> (forall i j, 0 < part lam i < n - m -> 0 < part lam j < n - m -> i = j) -> free lam.
Proof.
  induction lam as [|a t IH]; intros Hl HR; [apply free_nil|].
  destruct (Z.eq_dec a (n - m)) as [E|E].
  - apply step_wide; auto. cbn [tl]. apply IH; [apply (tl_box _ Hl)|]. intros i j Hi Hj. specialize (HR (S i) (S j) Hi Hj). lia.
  - apply free_one; auto. destruct (Z.le_gt_cases (part (a :: t) 1) 0) as [L|L]; auto. exfalso.
    assert (0%nat = 1%nat); [|lia]. pose proof (box_decr _ 0 1 Hl ltac:(lia)) as D. pose proof Hl as ((HP & _) & _ & HB).
    apply HR; unfold part in *; cbn in *; lia.
Qed.
Lemma near_free lam : box lam -> near_rectangle m (n - m) lam -> free lam.
Proof.
  intros Hl [H|[H|H]]; [apply (near_first (Z.to_nat (n - m))); auto|apply (near_last (Z.to_nat (n - m))); auto|apply near_full; auto];
    destruct Hl as (_ & _ & HB); lia.
Qed.
Lemma free_q0 lam mu : free lam -> box lam -> box mu ->
  exists x y, mult g (pS lam) (pS mu) = Ok x /\ qmult g (pS lam) (pS mu) = Ok y /\ multiplicity_free x /\ multiplicity_free y.
Proof.
  intros HF Hl Hmu. destruct (HF mu Hmu) as (y & Ey & _ & Fy).
  destruct (c09 m n g Hg ltac:(lia) (pS lam) (pS mu)) as (y' & x & Ey' & Ex & HS); auto using lin_comb0_pS.
  rewrite Ey in Ey'. inversion Ey'; subst y'. exists x, y. repeat split; auto.
  intros mo. destruct (Qc_eq_dec (coef x mo) 0%Qc) as [E|E]; auto.
  destruct (c50 m n g lam mu Hg ltac:(lia) Hl Hmu) as (r & Er & Lr & _). rewrite Ex in Er. inversion Er; subst r.
  destruct (Lr mo E) as (nu & Hn & HP). rewrite HP in *. rewrite <- HS; [apply Fy|]. intros [H|H]; [discriminate|destruct H].
Qed.
End S.

Lemma c81 m n g lam mu : Grassmannian m n = Ok g -> 1 <= m < n -> in_box m (n - m) lam -> in_box m (n - m) mu ->
  near_rectangle m (n - m) lam \/ (exists lam', is_conjugate lam lam' /\ near_rectangle (n - m) m lam') ->
  exists x y, mult g (pS lam) (pS mu) = Ok x /\ qmult g (pS lam) (pS mu) = Ok y /\ multiplicity_free x /\ multiplicity_free y.
Proof.
  intros Hg Hm Hl Hmu [H|(lam' & HC & H)]; apply (free_q0 m n); auto; [apply near_free; auto|].
  destruct (proj2 (c32_A (n - m) n) ltac:(lia)) as (g' & Hg').
  assert (En : n - (n - m) = m) by lia. pose proof (conj_unique_box m (n - m) lam lam' ltac:(lia) ltac:(lia) Hl HC) as El.
  assert (Hl' : in_box (n - m) m lam') by (subst lam'; apply box_conj; auto; lia).
  assert (HF : free (n - m) n g' lam') by (apply near_free; rewrite ?En; auto; lia).
  intros nu Hn. destruct (prod_ok m n g Hg Hm lam nu Hl Hn) as (r & Er & Lr). exists r. split; auto. split; auto.
  pose proof (part_conj_conjugate nu (proj1 Hn)) as HCn.
  destruct (c53 m n g g' lam nu lam' (part_conj nu) Hg Hg' Hm Hl Hn HC HCn) as (s & s' & Es & Es' & _ & _ & HS).
  rewrite Er in Es. inversion Es; subst s.
  destruct (HF (part_conj nu)) as (t & Et & _ & Ft); [rewrite En; apply box_conj; auto; lia|]. rewrite Es' in Et. inversion Et; subst t.
  intros mo. destruct (Qc_eq_dec (coef r mo) 0%Qc) as [E|E]; auto. destruct (Lr mo E) as (d & kap & Hk & HP). rewrite (coef_perm r _ _ HP).
  rewrite (HS d kap (part_conj kap) Hk (part_conj_conjugate kap (proj1 Hk))). apply Ft.
Qed.
Lemma c81_two m n g lam mu : Grassmannian m n = Ok g -> 1 <= m < n -> m <= 2 \/ n - m <= 2 -> in_box m (n - m) lam -> in_box m (n - m) mu ->
  exists x y, mult g (pS lam) (pS mu) = Ok x /\ qmult g (pS lam) (pS mu) = Ok y /\ multiplicity_free x /\ multiplicity_free y.
Proof.
  intros Hg Hm H2 Hl Hmu. apply (c81 m n); auto. destruct H2 as [H2|H2]; [left|right; exists (part_conj lam); split; [apply part_conj_conjugate, Hl|]];
    left; intros i j Hi Hj; replace j with i by lia; reflexivity.
Qed.
