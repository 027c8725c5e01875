(** The type A Pieri rules compute the expected sums (grassmannian.py:134-166). *)

From Coq Require Import ZArith List Lia Bool Permutation QArith Qcanon Setoid Morphisms.
From Verif Require Import Py OrderFacts PyFacts ModelPart ModelQcalc ModelPoly ModelGr Spec
  PolyFacts Enum FillFacts PartFacts.
Import ListNotations.
Open Scope Z_scope.

(** sum of monomials *)
Definition msum (l : list mono) : poly := map (fun m => (m, 1%Qc)) l.

Lemma msum_cons m l : peq (msum (m :: l)) (padd (pmono m) (msum l)).
Proof. change (msum (m :: l)) with (pmono m ++ msum l). apply poly_app. Qed.
Lemma msum_app a b : peq (msum (a ++ b)) (padd (msum a) (msum b)).
Proof. unfold msum. rewrite map_app. apply poly_app. Qed.

Lemma coef_msum_perm a b : Permutation a b -> peq (msum a) (msum b).
Proof.
  intros H m. unfold msum.
  induction H; simpl; auto.
  - rewrite IHPermutation. auto.
  - destruct (mono_eqb y m), (mono_eqb x m); ring.
  - congruence.
Qed.

Lemma coef_msum_notin l m : (forall m', In m' l -> ~ Permutation m' m) -> coef (msum l) m = 0%Qc.
Proof.
  induction l as [|m' l IH]; simpl; intros H; auto.
  destruct (mono_eqb m' m) eqn:E.
  - apply mono_eqb_perm in E. exfalso. apply (H m'); auto.
  - apply IH. intros; apply H; auto.
Qed.

Lemma coef_msum_in l m : (forall m', In m' l -> Permutation m' m -> m' = m) -> NoDup l -> In m l ->
  coef (msum l) m = 1%Qc.
Proof.
  induction l as [|m' l IH]; simpl; intros H Hn Hin; [contradiction|].
  inversion Hn as [|? ? H1 H2]; subst.
  destruct (mono_eqb m' m) eqn:E.
  - apply mono_eqb_perm in E. assert (m' = m) by auto. subst m'.
    fold (msum l). rewrite coef_msum_notin; [ring|].
    intros m' Hm' Hp. apply H1. rewrite <- (H m'); auto.
  - destruct Hin as [->|Hin].
    + assert (mono_eqb m m = true) by (apply mono_eqb_perm; auto). congruence.
    + apply IH; auto.
Qed.

(** *** bounds of the Pieri rule *)

(** bounds of the classical rule: part [j] lies between lam_j and lam_(j-1) *)
Fixpoint bnds (o : Z) (lam : list Z) : list (Z * Z) :=
  match lam with
  | [] => []
  | x :: t => (x, o) :: bnds x t
  end.

Lemma lows_bnds o lam : lows (bnds o lam) = lam.
Proof. revert o. induction lam; simpl; intros; f_equal; auto. Qed.
Lemma highs_bnds o lam : highs (bnds o lam) = removelast (o :: lam).
Proof.
  revert o. induction lam as [|x t IH]; simpl; intros; auto. f_equal. rewrite IH. auto.
Qed.
Lemma bnds_len o lam : length (bnds o lam) = length lam.
Proof. revert o. induction lam; simpl; intros; f_equal; auto. Qed.

Lemma okB_bnds k o lam : o <= k -> decp o lam -> okB k 0 o (bnds o lam).
Proof.
  revert o. induction lam as [|x t IH]; simpl; intros o Ho H; auto.
  destruct H as [H1 H2]. repeat split; try lia. apply IH; auto. lia.
Qed.

(** [mu] interlaces [lam] *)
Fixpoint intl (o : Z) (lam mu : list Z) : Prop :=
  match lam, mu with
  | [], [] => True
  | x :: lam', y :: mu' => x <= y <= o /\ intl x lam' mu'
  | _, _ => False
  end.

Lemma inV_bnds o lam : forall prev p mu, o <= prev -> 
  inV 0 prev (bnds o lam) p mu <-> intl o lam mu /\ zsum mu = zsum lam + p.
Proof.
  revert o. induction lam as [|x t IH]; intros o prev p [|y mu] Hp; simpl.
  - intuition lia.
  - tauto.
  - tauto.
  - split.
    + intros (H1 & H2 & H3). apply IH in H3; [|lia]. intuition lia.
    + intros ((H1 & H2) & H3). split; [lia|]. split; [lia|]. apply IH; [lia|]. split; auto. lia.
Qed.

Lemma intl_len o lam : forall mu, intl o lam mu -> length mu = length lam.
Proof. revert o. induction lam; destruct mu; simpl; intros; try tauto. f_equal. eapply IHlam. apply H. Qed.

Lemma intl_part o lam : forall mu, intl o lam mu <->
  length mu = length lam /\
  (forall j, (j < length lam)%nat -> part lam j <= part mu j) /\
  (forall j, (S j < length lam)%nat -> part mu (S j) <= part lam j) /\
  (lam <> [] -> part mu 0 <= o).
Proof.
  revert o. induction lam as [|x t IH]; intros o [|y mu]; simpl.
  - intuition; try lia.
  - split; [tauto|]. intros (H & _). lia.
  - split; [tauto|]. intros (H & _). lia.
  - rewrite IH. split.
    + intros ([H1 H2] & H3 & H4 & H5 & H6). split; [lia|]. split; [|split].
      * intros [|j] Hj; unfold part in *; simpl in *; auto. apply H4. lia.
      * intros [|j] Hj; unfold part in *; simpl in *.
        -- apply H6. destruct t; simpl in Hj; [lia | congruence].
        -- apply H5. lia.
      * intros _. unfold part. simpl. lia.
    + intros (H3 & H4 & H5 & H6).
      assert (H7 : part (y :: mu) 0 <= o) by (apply H6; congruence).
      pose proof (H4 0%nat ltac:(simpl; lia)). unfold part in *. simpl in *.
      split; [lia|]. split; [lia|]. split; [|split].
      * intros j Hj. apply (H4 (S j)). lia.
      * intros j Hj. apply (H5 (S j)). lia.
      * intros Ht. apply (H5 0%nat). destruct t; simpl in *; [congruence | lia].
Qed.

Lemma intl_decp o lam mu : intl o lam mu -> decp o lam -> decp o mu.
Proof.
  revert o mu. induction lam as [|x t IH]; intros o [|y mu]; simpl; try tauto.
  intros [H1 H2] [H3 H4]. split; [lia|]. eapply decp_mono; [|apply IH; eauto]. lia.
Qed.

(** for partitions in the box, [intl] is: add a horizontal strip *)
Lemma intl_strip m k lam mu : 1 <= m -> in_box m k lam -> in_box m k mu ->
  (intl k (padm m lam) (padm m mu) <-> adds_horizontal_strip lam mu).
Proof.
  intros Hm Hl Hmu.
  pose proof (in_box_wbox _ _ _ Hl) as [_ Ll]. pose proof (in_box_wbox _ _ _ Hmu) as [_ Lm].
  rewrite intl_part. unfold adds_horizontal_strip.
  assert (Hout : forall l j, zlen l = m -> (Z.to_nat m <= j)%nat -> part l j = 0).
  { intros l j H H'. unfold part. apply nth_overflow. unfold zlen in H. lia. }
  assert (El : length (padm m lam) = Z.to_nat m) by (unfold zlen in Ll; lia).
  assert (Em : length (padm m mu) = Z.to_nat m) by (unfold zlen in Lm; lia).
  rewrite El, Em. setoid_rewrite part_padm.
  pose proof (fun j => Hout _ j Ll) as Ol. pose proof (fun j => Hout _ j Lm) as Om.
  setoid_rewrite part_padm in Ol. setoid_rewrite part_padm in Om.
  destruct Hl as (Pl & _ & Kl). destruct Hmu as (Pm & _ & Km).
  pose proof (fun j => is_partition_nonneg _ j Pl) as Nl.
  split.
  - intros (_ & H1 & H2 & _) j. split.
    + destruct (Nat.lt_ge_cases (S j) (Z.to_nat m)); auto. rewrite (Om (S j)); auto.
    + destruct (Nat.lt_ge_cases j (Z.to_nat m)); auto. rewrite (Ol j), (Om j); auto. lia.
  - intros H. split; auto. split; [|split].
    + intros j _. apply H.
    + intros j _. apply H.
    + intros _. auto.
Qed.

(** *** the loop *)

Lemma sym_clip m k mu : 0 <= k -> wbox m k mu -> symbol (SP (part_clip mu)) = Ok (pS (part_clip mu)).
Proof.
  intros Hk H. unfold symbol. rewrite (in_box_nonneg m k); auto. apply wbox_in_box; auto.
Qed.

Lemma pieriA_runs m k inner outer (Hk : 0 <= k) a l :
  chain (fun x => pieri_itrA x inner outer) a l -> Forall (wbox m k) l ->
  forall acc, exists r, runs (pieriA_body inner outer) (Some a, acc) (length l) r /\
    peq r (padd (msum (map (fun x => [vS (part_clip x)]) l)) acc).
Proof.
  induction 1 as [a Ha | a b l Ha Hc IH]; intros Hw acc; inversion Hw; subst.
  - eexists. split.
    + simpl. eapply runs_next.
      * simpl. rewrite (sym_clip m k); auto. simpl. rewrite Ha. simpl. reflexivity.
      * apply runs_done. reflexivity.
    + simpl. reflexivity.
  - destruct (IH H2 (padd (pS (part_clip a)) acc)) as (r & Hr & E).
    exists r. split.
    + simpl. eapply runs_next; [|exact Hr].
      simpl. rewrite (sym_clip m k); auto. simpl. rewrite Ha. reflexivity.
    + rewrite E. simpl map. rewrite msum_cons.
      change (pS (part_clip a)) with (pmono [vS (part_clip a)]). ring.
Qed.

(** The classical rule: a sum over all interlacing shapes, each once. *)
Lemma pieriA_enum m k lam i : 1 <= m -> in_box m k lam -> 0 <= i ->
  exists ms p, pieriA_inner i lam k (m + k) = Ok p /\
    peq p (msum (map (fun x => [vS (part_clip x)]) ms)) /\ NoDup ms /\
    forall mu, In mu ms <-> intl k (padm m lam) mu /\ zsum mu = zsum lam + i.
Proof.
  intros Hm Hb Hi. pose proof (in_box_k _ _ _ Hb) as Hk.
  pose proof (in_box_wbox _ _ _ Hb) as [Hd Hlen].
  unfold pieriA_inner. replace (m + k - k) with m by lia.
  change (padding_right lam 0 (m - zlen lam)) with (padm m lam).
  set (L := padm m lam) in *.
  assert (HL : exists x t, L = x :: t).
  { destruct L; [rewrite zlen_nil in Hlen; lia | eauto]. }
  assert (Ho : k :: sl_to L (-1) = highs (bnds k L)).
  { rewrite highs_bnds, sl_to_m1_removelast. destruct HL as (x & t & ->). auto. }
  rewrite Ho. replace (pieri_fillA L L) with (pieri_fillA L (lows (bnds k L)))
    by (rewrite lows_bnds; auto).
  assert (Hf : pieri_fillA L (lows (bnds k L)) (highs (bnds k L)) 0 i = Ok (fillD 0 k (bnds k L) i)).
  { destruct HL as (x & t & E). rewrite E at 2 3 4. simpl bnds. rewrite fillA_start; auto.
    rewrite E, bnds_len. auto. }
  rewrite Hf. cbn [bind].
  pose proof (okB_bnds k k L (Z.le_refl k) Hd) as Hok.
  pose proof (fillD_spec k Hk 0 k (bnds k L) i Hok Hi) as Hfs.
  assert (Hchar : forall mu, inV 0 k (bnds k L) i mu <-> intl k L mu /\ zsum mu = zsum lam + i).
  { intros mu. rewrite inV_bnds by lia. unfold L. rewrite zsum_padm. tauto. }
  destruct (fillD 0 k (bnds k L) i) as [a|].
  - destruct Hfs as [Ha Hmax].
    assert (Hnx : forall x, inV 0 k (bnds k L) i x -> 
       pieri_itrA x (lows (bnds k L)) (highs (bnds k L)) = Ok (nextD 0 (bnds k L) x)).
    { intros x Hx. apply pieri_itrA_ok.
      - rewrite (inV_len _ _ _ _ _ Hx). auto.
      - eapply inV_above; eauto. }
    destruct (chain_ok_max k Hk (inV 0 k (bnds k L) i) (length L)
               (fun x => pieri_itrA x (lows (bnds k L)) (highs (bnds k L)))) with (a := a)
      as (l & Hc & Hin & Hnd & Hl); auto.
    + intros x Hx. eapply inV_rng; eauto.
    + intros x Hx. rewrite (inV_len _ _ _ _ _ Hx), bnds_len. auto.
    + intros x Hx. rewrite Hnx by auto.
      pose proof (nextD_spec k Hk 0 (bnds k L) k i x Hok Hx) as Hn.
      destruct (nextD 0 (bnds k L) x) as [b|]; [right; exists b | left]; auto.
    + assert (Hw : Forall (wbox m k) l).
      { apply Forall_forall. intros x Hx. apply Hin, Hchar in Hx. destruct Hx as [Hx _]. split.
        - eapply intl_decp; eauto.
        - rewrite <- Hlen. unfold zlen. rewrite (intl_len _ _ _ Hx). auto. }
      destruct (pieriA_runs m k _ _ Hk a l Hc Hw pzero) as (r & Hr & Er).
      rewrite lows_bnds in Hr.
      exists l, r. split; [|split; [|split]]; auto.
      * eapply loop2_runs; [exact Hr|].
        pose proof (pow_le_2 k Hk (length L) 0) as Hp.
        replace (Z.of_nat (length L)) with m in * by (unfold zlen in Hlen; lia).
        apply Nat2Z.inj_lt. rewrite Nat2Z.inj_pow. simpl Z.of_nat.
        rewrite Z2Nat.id by nia.
        replace (m * k + 1) with (k * m + Z.of_nat 0 + 1) by (simpl; lia).
        rewrite (Z.pow_add_r 2 (k * m + Z.of_nat 0) 1) by (simpl; nia). simpl Z.of_nat in *.
        assert (0 < 2 ^ (k * m + 0)) by (apply Z.pow_pos_nonneg; nia). lia.
      * rewrite Er. ring.
      * intros mu. rewrite Hin. apply Hchar.
  - exists [], pzero. split; [|split; [|split]].
    + apply (loop2_runs _ _ _ 0).
      * apply runs_done. reflexivity.
      * apply Nat.neq_0_lt_0. apply Nat.pow_nonzero. auto.
    + reflexivity.
    + constructor.
    + intros mu. simpl. split; [tauto|]. intros H. apply Hchar in H. apply (Hfs mu); auto.
Qed.
