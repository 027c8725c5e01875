(** The vertical Pieri rule, the conjugation symmetry, and the products with a full
    row or column: the lemmas behind PropsVert.v. *)

From Coq Require Import ZArith List Lia Bool Permutation QArith Qcanon Setoid Morphisms.
From Verif Require Import Py OrderFacts PyFacts ModelPart ModelQcalc ModelPoly ModelStr ModelGr Spec SpecMisc
  PolyFacts SuppFacts OpTheory Enum FillFacts PartFacts PieriA QPieriA CylA WSum Sys Sys2 SysMap RingA FactsA
  SysApi ApiA ApiLR ConjFacts VertA ConjRing Check.
Import ListNotations.
Open Scope Z_scope.

Lemma qmult_MA m k (Hm : 1 <= m) (Hk : 0 <= k) a b : in_box m k a -> in_box m k b ->
  exists r, qmult (gA m k) (pS a) (pS b) = Ok r /\ peq r (MA m k true (pS a) (pS b)) /\ lin_comb (in_box m k) r.
Proof.
  intros Ha Hb. destruct (api_prod (sysA m k Hm Hk true) (pS a) (pS b)) as (r & E & Pr & L); auto using lin_comb_poly_in, lin_comb_pS.
  exists r. auto.
Qed.

(** ** C52 *)
Lemma c52 m n g j lam : Grassmannian m n = Ok g -> 1 <= m < n -> in_box m (n - m) lam -> 1 <= j <= m ->
  exists r, qmult g (pS (repeat 1 (Z.to_nat j))) (pS lam) = Ok r /\
    is_sum_of r (fun d mu => in_box m (n - m) mu /\
      ((d = 0%nat /\ adds_vertical_strip lam mu /\ size mu = size lam + j) \/
       (d = 1%nat /\ bertram_columns (n - m) lam mu /\ size mu = size lam + j - n))).
Proof.
  intros Hg Hm Hl Hj. apply gr_inv in Hg. destruct Hg as (_ & Hk & ->). assert (Hm1 : 1 <= m) by lia. assert (Hk1 : 1 <= n - m) by lia.
  pose proof (col_box m (n - m) Hm1 Hk1 j ltac:(lia)) as Hc.
  destruct (qmult_MA m (n - m) Hm1 Hk (col j) lam Hc Hl) as (r & E & Pr & _). exists r. split; [exact E|].
  eapply is_sum_iff; [|eapply is_sum_peq; [|exact (vertical m (n - m) Hm1 Hk1 lam j Hl Hj)]].
  - intros d mu. unfold vterm. replace (m + (n - m)) with n by lia. reflexivity.
  - rewrite Pr. apply (sys_comm (sysA m (n - m) Hm1 Hk true)); apply sys_lq_pS; auto.
Qed.

Lemma qfree_sum x r R (V : list Z -> Prop) : is_sum_of x R -> same_q_free_part x r -> lin_comb0 V r ->
  is_sum_of r (fun d mu => d = 0%nat /\ R 0%nat mu).
Proof.
  intros [H1 H2] HS HL. split.
  - intros d mu [-> HR]. rewrite <- HS; [apply H1; auto|]. intros [H|H]; [discriminate|destruct H].
  - intros mo Hmo. destruct (HL mo Hmo) as (mu & Hmu & ->). exists 0%nat, mu. split; [|apply Permutation_refl].
    split; auto. rewrite <- HS in Hmo by (intros [H|H]; [discriminate|destruct H]).
    destruct (H2 _ Hmo) as (d & nu & HR & HP). change [vS mu] with (qS 0 mu) in HP. apply Sys.qS_inj in HP. destruct HP as [<- <-]. auto.
Qed.
Lemma c52_classical m n g j lam : Grassmannian m n = Ok g -> 1 <= m < n -> in_box m (n - m) lam -> 1 <= j <= m ->
  exists r, mult g (pS (repeat 1 (Z.to_nat j))) (pS lam) = Ok r /\
    is_sum_of r (fun d mu => d = 0%nat /\ in_box m (n - m) mu /\ adds_vertical_strip lam mu /\ size mu = size lam + j).
Proof.
  intros Hg Hm Hl Hj. pose proof (col_box m (n - m) ltac:(lia) ltac:(lia) j ltac:(lia)) as Hc.
  destruct (c52 m n g j lam Hg Hm Hl Hj) as (x & Ex & Sx).
  destruct (c50 m n g (col j) lam Hg ltac:(lia) Hc Hl) as (r & Er & Lr & _).
  destruct (c09 m n g Hg ltac:(lia) (pS (col j)) (pS lam)) as (x' & r' & Ex' & Er' & HS); auto using lin_comb0_pS.
  unfold col in *. rewrite Ex in Ex'. inversion Ex'; subst x'. rewrite Er in Er'. inversion Er'; subst r'.
  exists r. split; auto. eapply is_sum_iff; [|exact (qfree_sum x r _ _ Sx HS Lr)]. intros d mu. cbv beta. split.
  - intros (-> & H1 & [(_ & H2)|(? & _)]); [auto|discriminate].
  - intros (-> & H1 & H2 & H3). auto 6.
Qed.

(** ** C53 *)
Lemma conj_unique_box m k lam lam' : 0 <= m -> 0 <= k -> in_box m k lam -> is_conjugate lam lam' -> lam' = part_conj lam.
Proof. intros Hm Hk Hl Hc. eapply conjugate_unique; [exact Hc|]. apply part_conj_conjugate, Hl. Qed.
Lemma c53 m n g g' lam mu lam' mu' : Grassmannian m n = Ok g -> Grassmannian (n - m) n = Ok g' -> 1 <= m < n ->
  in_box m (n - m) lam -> in_box m (n - m) mu -> is_conjugate lam lam' -> is_conjugate mu mu' ->
  exists r r', qmult g (pS lam) (pS mu) = Ok r /\ qmult g' (pS lam') (pS mu') = Ok r' /\
    lin_comb (in_box m (n - m)) r /\ lin_comb (in_box (n - m) m) r' /\
    forall d nu nu', in_box m (n - m) nu -> is_conjugate nu nu' -> coef r (qS d nu) = coef r' (qS d nu').
Proof.
  intros Hg Hg' Hm Hl Hmu Cl Cm. apply gr_inv in Hg. destruct Hg as (_ & Hk & ->).
  apply gr_inv in Hg'. destruct Hg' as (_ & Hk' & ->). replace (n - (n - m)) with m in * by lia.
  assert (Hm1 : 1 <= m) by lia. assert (Hk1 : 1 <= n - m) by lia.
  apply (conj_unique_box m (n - m)) in Cl; auto; try lia. apply (conj_unique_box m (n - m)) in Cm; auto; try lia. subst lam' mu'.
  destruct (qmult_MA m (n - m) Hm1 Hk lam mu Hl Hmu) as (r & E & Pr & L).
  destruct (qmult_MA (n - m) m Hk1 Hk' (part_conj lam) (part_conj mu)) as (r' & E' & Pr' & L'); [apply box_conj; auto; lia..|].
  exists r, r'. split; auto. split; auto. split; auto. split; auto.
  intros d nu nu' Hn Cn. apply (conj_unique_box m (n - m)) in Cn; auto; try lia. subst nu'.
  rewrite (Pr _), (Pr' _). symmetry. apply conj_coef; auto.
Qed.
Lemma lin_comb0_q (V : list Z -> Prop) p d nu : lin_comb0 V p -> (0 < d)%nat -> coef p (qS d nu) = 0%Qc.
Proof.
  intros H Hd. destruct (Qc_eq_dec (coef p (qS d nu)) 0%Qc) as [E|E]; auto. destruct (H _ E) as (mu & _ & HP).
  apply (f_equal (@length var)) in HP. unfold qS in HP. cbn [length] in HP. rewrite repeat_length in HP. lia.
Qed.
Lemma c53_classical m n g g' lam mu lam' mu' : Grassmannian m n = Ok g -> Grassmannian (n - m) n = Ok g' -> 1 <= m < n ->
  in_box m (n - m) lam -> in_box m (n - m) mu -> is_conjugate lam lam' -> is_conjugate mu mu' ->
  exists r r', mult g (pS lam) (pS mu) = Ok r /\ mult g' (pS lam') (pS mu') = Ok r' /\
    lin_comb0 (in_box m (n - m)) r /\ lin_comb0 (in_box (n - m) m) r' /\
    forall nu nu', in_box m (n - m) nu -> is_conjugate nu nu' -> coef r [vS nu] = coef r' [vS nu'].
Proof.
  intros Hg Hg' Hm Hl Hmu Cl Cm.
  destruct (c53 m n g g' lam mu lam' mu' Hg Hg' Hm Hl Hmu Cl Cm) as (x & x' & E & E' & _ & _ & HC).
  apply (conj_unique_box m (n - m)) in Cl; auto; try lia. apply (conj_unique_box m (n - m)) in Cm; auto; try lia. subst lam' mu'.
  pose proof (box_conj m (n - m) lam ltac:(lia) ltac:(lia) Hl) as Bl. pose proof (box_conj m (n - m) mu ltac:(lia) ltac:(lia) Hmu) as Bm.
  assert (En : n - (n - m) = m) by lia.
  destruct (c50 m n g lam mu Hg ltac:(lia) Hl Hmu) as (r & Er & Lr & _).
  destruct (c50 (n - m) n g' (part_conj lam) (part_conj mu) Hg' ltac:(lia)) as (r' & Er' & Lr' & _); [rewrite En; auto..|]. rewrite En in Lr'.
  destruct (c09 m n g Hg ltac:(lia) (pS lam) (pS mu)) as (y & s & Ey & Es & HS); auto using lin_comb0_pS.
  destruct (c09 (n - m) n g' Hg' ltac:(lia) (pS (part_conj lam)) (pS (part_conj mu))) as (y' & s' & Ey' & Es' & HS');
    [rewrite En; auto using lin_comb0_pS..|].
  rewrite E in Ey. rewrite E' in Ey'. rewrite Er in Es. rewrite Er' in Es'. inversion Ey; inversion Ey'; inversion Es; inversion Es'; subst.
  exists s, s'. split; auto. split; auto. split; auto. split; auto. intros nu nu' Hn Cn.
  rewrite <- HS, <- HS' by (intros [H|H]; [discriminate|destruct H]). apply (HC 0%nat); auto.
Qed.

(** ** C54 *)
Definition psum (n : nat) (f : nat -> Z) : Z := zsum (map f (seq 0 n)).
Lemma psum_S n f : psum (S n) f = f O + psum n (fun j => f (S j)).
Proof. unfold psum. cbn [seq map]. change (zsum (f O :: map f (seq 1 n))) with (f O + zsum (map f (seq 1 n))). rewrite <- seq_shift, map_map. reflexivity. Qed.
Lemma psum_le n : forall f g, (forall j, (j < n)%nat -> f j <= g j) -> psum n f <= psum n g.
Proof.
  induction n as [|n IH]; intros f g H; [unfold psum; cbn; lia|]. rewrite !psum_S. specialize (H O ltac:(lia)) as H0.
  specialize (IH (fun j => f (S j)) (fun j => g (S j))). cbv beta in IH. assert (psum n (fun j => f (S j)) <= psum n (fun j => g (S j))) by (apply IH; intros; apply H; lia). lia.
Qed.
Lemma psum_eq n : forall f g, (forall j, (j < n)%nat -> f j <= g j) -> psum n g <= psum n f -> forall j, (j < n)%nat -> f j = g j.
Proof.
  induction n as [|n IH]; intros f g H HS j Hj; [lia|]. rewrite !psum_S in HS. pose proof (H O ltac:(lia)) as H0.
  assert (psum n (fun j => f (S j)) <= psum n (fun j => g (S j))) by (apply psum_le; intros; apply H; lia).
  destruct j as [|j]; [lia|]. apply (IH (fun j => f (S j)) (fun j => g (S j))); [intros; apply H; lia|lia|lia].
Qed.
Lemma psum_add n c : forall f, psum n (fun j => f j + c) = psum n f + Z.of_nat n * c.
Proof. induction n as [|n IH]; intros f; [unfold psum; cbn; lia|]. rewrite !psum_S, (IH (fun j => f (S j))). lia. Qed.
Lemma psum_ext n : forall f g, (forall j, (j < n)%nat -> f j = g j) -> psum n f = psum n g.
Proof. intros f g H. unfold psum. f_equal. apply map_ext_in. intros j Hj. apply in_seq in Hj. apply H. lia. Qed.
Lemma size_psum l : forall n, (length l <= n)%nat -> size l = psum n (part l).
Proof.
  induction l as [|x l IH]; intros n Hn.
  - unfold size. cbn. rewrite (psum_ext n _ (fun j => 0 + 0)) by (intros j _; rewrite part_nil; auto).
    clear. induction n; auto. rewrite psum_S, <- IHn. reflexivity.
  - destruct n as [|n]; [cbn [length] in Hn; lia|]. rewrite psum_S. change (size (x :: l)) with (x + size l). rewrite (IH n) by (cbn [length] in Hn; lia). reflexivity.
Qed.
Lemma size_shift l n : (length l <= S n)%nat -> psum n (fun j => part l (S j)) = size l - part l 0.
Proof. intros H. rewrite (size_psum l (S n) H), psum_S. lia. Qed.
Lemma box_eq m k a b : 1 <= m -> in_box m k a -> in_box m k b -> (forall j, Z.of_nat j < m -> part a j = part b j) -> a = b.
Proof.
  intros Hm (Pa & La & _) (Pb & Lb & _) H. apply partition_eq; auto. intros j. destruct (Z.lt_ge_cases (Z.of_nat j) m); auto.
  unfold part. rewrite !nth_overflow by lia. auto.
Qed.
Lemma full_nonzero m k l : 1 <= m -> in_box m k l -> (0 < part l (Z.to_nat (m - 1)) <-> Z.of_nat (length l) = m).
Proof.
  intros Hm (Hp & Hl & _). split; intros H.
  - destruct (Z.eq_dec (Z.of_nat (length l)) m); auto. unfold part in H. rewrite nth_overflow in H by lia. lia.
  - apply Hp. lia.
Qed.

Lemma c54_row m n g lam : Grassmannian m n = Ok g -> 1 <= m < n -> in_box m (n - m) lam ->
  exists r, qmult g (pS [n - m]) (pS lam) = Ok r /\
    (Z.of_nat (length lam) < m -> is_sum_of r (fun d nu => d = 0%nat /\ nu = n - m :: lam)) /\
    (Z.of_nat (length lam) = m -> exists mu, in_box m (n - m) mu /\
       (forall j, Z.of_nat j < m -> part mu j = part lam j - 1) /\ is_sum_of r (fun d nu => d = 1%nat /\ nu = mu)).
Proof.
  intros Hg Hm Hl. destruct (c43_api m n g (n - m) (pS lam) Hg ltac:(lia) ltac:(lia)) as [_ (r & r' & E & E' & Er)]; [apply lin_comb_pS; auto|].
  destruct (c02 m n g (n - m) lam Hg ltac:(lia) Hl ltac:(lia)) as (p & Ep & Sp). rewrite E' in Ep. inversion Ep; subst r'. clear Ep E'.
  assert (Sr : is_sum_of r _) by (eapply is_sum_peq; [symmetry; exact Er|exact Sp]). clear Sp Er. exists r. split; auto.
  pose proof Hl as (Pl & Ll & Bl). split; intros HL.
  - assert (HB : in_box m (n - m) (n - m :: lam)).
    { split; [split|split].
      - intros [|j] Hj; [unfold part; cbn; lia|]. apply Pl. cbn [length] in Hj. lia.
      - intros [|j]; [exact Bl|apply Pl].
      - cbn [length]. lia.
      - unfold part. cbn. lia. }
    eapply is_sum_iff; [|exact Sr]. intros d nu. cbv beta. split.
    + intros (Hn & [(-> & HH & HS)|(-> & HH & HS)]).
      * split; auto. pose proof Hn as (Pn & Ln & Bn).
        assert (EQ : forall j, (j < Z.to_nat m)%nat -> part nu (S j) = part lam j).
        { apply psum_eq; [intros j _; apply HH|]. rewrite size_shift by lia. rewrite <- (size_psum lam) by lia. lia. }
        assert (E0 : part nu 0 = n - m).
        { assert (psum (Z.to_nat m) (fun j => part nu (S j)) = size lam); [|rewrite size_shift in *; lia].
          rewrite (size_psum lam (Z.to_nat m)) by lia. apply psum_ext; auto. }
        apply (box_eq m (n - m)); auto; try lia. intros [|j] Hj; auto. change (part (n - m :: lam) (S j)) with (part lam j). apply EQ. lia.
      * exfalso. destruct HH as [HH _]. specialize (HH (Z.to_nat (m - 1)) ltac:(lia)).
        pose proof (is_partition_nonneg nu (Z.to_nat (m - 1)) (proj1 Hn)).
        assert (0 < part lam (Z.to_nat (m - 1))) as HF by lia. apply (full_nonzero m (n - m)) in HF; auto; lia.
    + intros [-> ->]. split; auto. left. split; auto. split.
      * intros j. change (part (n - m :: lam) (S j)) with (part lam j). split; [lia|]. destruct j as [|j]; [exact Bl|apply Pl].
      * change (size (n - m :: lam)) with (n - m + size lam). lia.
  - set (mu := strip lam). assert (PM : forall j, Z.of_nat j < m -> part mu j = part lam j - 1).
    { intros j Hj. unfold mu. rewrite part_strip by auto. assert (0 < part lam j) by (apply Pl; lia). lia. }
    assert (HB : in_box m (n - m) mu).
    { split; [apply strip_partition; auto|]. split; [|rewrite PM by lia; lia].
      destruct (Z.le_gt_cases (Z.of_nat (length mu)) m); auto. exfalso. pose proof (strip_partition lam Pl) as [HQ _]. fold mu in HQ.
      specialize (HQ (Z.to_nat m) ltac:(lia)). unfold mu in HQ. rewrite part_strip in HQ by auto.
      assert (part lam (Z.to_nat m) = 0) by (unfold part; apply nth_overflow; lia). lia. }
    assert (SM : size mu = size lam - m).
    { rewrite (size_psum mu (Z.to_nat m)), (size_psum lam (Z.to_nat m)) by (destruct HB as (_ & ? & _); lia).
      rewrite (psum_ext _ (part mu) (fun j => part lam j + -1)) by (intros; rewrite PM; lia). rewrite psum_add. lia. }
    exists mu. split; auto. split; auto. eapply is_sum_iff; [|exact Sr]. intros d nu. cbv beta. split.
    + intros (Hn & [(-> & HH & HS)|(-> & HH & HS)]); pose proof Hn as (Pn & Ln & Bn).
      * exfalso. assert (EQ : forall j, (j < Z.to_nat m)%nat -> part nu (S j) = part lam j).
        { apply psum_eq; [intros j _; apply HH|]. rewrite size_shift by lia. rewrite <- (size_psum lam) by lia. lia. }
        specialize (EQ (Z.to_nat (m - 1)) ltac:(lia)). apply (full_nonzero m (n - m)) in HL; auto; try lia.
        unfold part in EQ at 1. rewrite nth_overflow in EQ by lia. lia.
      * split; auto. apply (box_eq m (n - m)); auto; try lia. intros j Hj.
        apply (psum_eq (Z.to_nat m) (part nu) (part mu)); try lia.
        -- intros i Hi. rewrite PM by lia. apply HH. lia.
        -- rewrite <- !size_psum by (destruct HB as (_ & ? & _); lia). lia.
    + intros [-> ->]. split; auto. right. split; auto. split; [|lia]. split; intros j Hj; rewrite PM by lia; [lia|].
      destruct Pl as [_ Pl]. specialize (Pl j). lia.
Qed.

Lemma c54_col m n g lam : Grassmannian m n = Ok g -> 1 <= m < n -> in_box m (n - m) lam ->
  exists r, qmult g (pS (repeat 1 (Z.to_nat m))) (pS lam) = Ok r /\
    (part lam 0 < n - m -> exists mu, in_box m (n - m) mu /\
       (forall j, Z.of_nat j < m -> part mu j = part lam j + 1) /\ is_sum_of r (fun d nu => d = 0%nat /\ nu = mu)) /\
    (part lam 0 = n - m -> is_sum_of r (fun d nu => d = 1%nat /\ nu = tl lam)).
Proof.
  intros Hg Hm Hl. destruct (c52 m n g m lam Hg Hm Hl ltac:(lia)) as (r & E & Sr). exists r. split; auto.
  pose proof Hl as (Pl & Ll & Bl). split; intros HL.
  - set (f := fun j => part lam j + 1). set (mu := map f (seq 0 (Z.to_nat m))).
    assert (Lm : length mu = Z.to_nat m) by (unfold mu; rewrite map_length, seq_length; auto).
    assert (PM : forall j, Z.of_nat j < m -> part mu j = part lam j + 1).
    { intros j Hj. unfold part at 1, mu. rewrite (nth_indep _ 0 (f O)) by (rewrite map_length, seq_length; lia).
      rewrite (map_nth f), seq_nth by lia. reflexivity. }
    assert (HB : in_box m (n - m) mu).
    { split; [split|split].
      - intros j Hj. rewrite PM by lia. pose proof (is_partition_nonneg lam j Pl). lia.
      - intros j. destruct (Z.lt_ge_cases (Z.of_nat (S j)) m).
        + rewrite !PM by lia. destruct Pl as [_ Pl]. specialize (Pl j). lia.
        + unfold part at 1. rewrite nth_overflow by lia. destruct (Z.lt_ge_cases (Z.of_nat j) m); [rewrite PM by lia; pose proof (is_partition_nonneg lam j Pl); lia|].
          unfold part. rewrite nth_overflow by lia. lia.
      - lia.
      - rewrite PM by lia. lia. }
    assert (SM : size mu = size lam + m).
    { rewrite (size_psum mu (Z.to_nat m)), (size_psum lam (Z.to_nat m)) by lia.
      rewrite (psum_ext _ (part mu) (fun j => part lam j + 1)) by (intros; rewrite PM; lia). rewrite psum_add. lia. }
    exists mu. split; auto. split; auto. eapply is_sum_iff; [|exact Sr]. intros d nu. cbv beta. split.
    + intros (Hn & [(-> & HH & HS)|(-> & HH & HS)]); [|destruct HH as [HH _]; lia]. pose proof Hn as (Pn & Ln & Bn).
      split; auto. apply (box_eq m (n - m)); auto; try lia. intros j Hj.
      apply (psum_eq (Z.to_nat m) (part nu) (part mu)); try lia.
      * intros i Hi. rewrite PM by lia. apply HH.
      * rewrite <- !size_psum by lia. lia.
    + intros [-> ->]. split; auto. left. split; auto. split; [|lia]. intros j. destruct (Z.lt_ge_cases (Z.of_nat j) m).
      * rewrite PM by lia. lia.
      * unfold part. rewrite !nth_overflow by lia. lia.
  - assert (TL : forall j, part (tl lam) j = part lam (S j)) by (intros j; destruct lam; [destruct j; reflexivity|reflexivity]).
    assert (LT : (length (tl lam) <= Z.to_nat m)%nat) by (destruct lam; cbn [tl length] in *; lia).
    assert (HB : in_box m (n - m) (tl lam)).
    { split; [split|split].
      - intros j Hj. rewrite TL. apply Pl. destruct lam; cbn [tl length] in *; lia.
      - intros j. rewrite !TL. apply Pl.
      - lia.
      - rewrite TL. destruct Pl as [_ Pl]. specialize (Pl 0%nat). lia. }
    assert (ST : size (tl lam) = size lam - (n - m)).
    { rewrite (size_psum (tl lam) (Z.to_nat m)) by auto. rewrite (psum_ext _ _ (fun j => part lam (S j))) by (intros; apply TL). rewrite size_shift by lia. lia. }
    eapply is_sum_iff; [|exact Sr]. intros d nu. cbv beta. split.
    + intros (Hn & [(-> & HH & HS)|(-> & [_ HH] & HS)]); pose proof Hn as (Pn & Ln & Bn).
      * exfalso. assert (EQ : forall j, (j < Z.to_nat m)%nat -> part nu j = part lam j + 1).
        { apply psum_eq; [intros j _; apply HH|]. rewrite psum_add, <- !size_psum by lia. lia. }
        specialize (EQ 0%nat ltac:(lia)). lia.
      * split; auto. apply (box_eq m (n - m)); auto; try lia. intros j Hj.
        apply (psum_eq (Z.to_nat m) (part nu) (part (tl lam))); try lia.
        -- intros i Hi. rewrite TL. apply HH.
        -- rewrite <- !size_psum by lia. lia.
    + intros [-> ->]. split; auto. right. split; auto. split; [|lia]. split; auto. intros j. rewrite TL. lia.
Qed.
