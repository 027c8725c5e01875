(** Rim hook removal (partition.py). *)

From Coq Require Import ZArith List Lia Bool Permutation QArith Qcanon.
From Verif Require Import Py OrderFacts ModelPart ModelQcalc ModelPoly Spec SpecMisc PyFacts PartFacts ApiPart.
Import ListNotations.
Open Scope Z_scope.

(** the inner loop as a function of the rows still to be visited *)
Fixpoint hook (s : list Z) (r : Z) : option (list Z) :=
  match s with
  | [] => None
  | x :: t =>
      let y := nth 0 t 0 in
      if r <=? x - y then Some (x - r :: t)
      else if 0 <? y then
        if r - (x - y + 1) <=? 0 then None
        else option_map (cons (y - 1)) (hook t (r - (x - y + 1)))
      else None
  end.

Lemma rim_zeros c : forall pre r, 0 < r ->
  rim_for (zrange (zlen pre) (zlen pre + Z.of_nat c)) (pre ++ repeat 0 c ++ [0]) r = Ok None.
Proof.
  induction c as [|c IH]; intros pre r Hr; [rewrite zrange_nil by lia; reflexivity|].
  rewrite zrange_cons by lia. cbn [rim_for repeat app].
  assert (Hn : exists t, repeat 0 c ++ [0] = 0 :: t).
  { destruct c; simpl; eauto. }
  destruct Hn as [t Ht]. rewrite Ht.
  rewrite (py_get_mid pre 0 (0 :: t)) by auto. cbn [bind].
  replace (pre ++ 0 :: 0 :: t) with ((pre ++ [0]) ++ 0 :: t) by (rewrite <- app_assoc; reflexivity).
  rewrite (py_get_mid (pre ++ [0]) 0 t) by (rewrite zlen_app; reflexivity). cbn [bind].
  destruct (Z.leb_spec r (0 - 0)); [lia|]. cbn [Z.ltb Z.compare].
  replace ((pre ++ [0]) ++ 0 :: t) with (pre ++ 0 :: 0 :: t) by (rewrite <- app_assoc; reflexivity).
  rewrite (py_set_mid pre 0 (0 :: t)) by auto. cbn [bind]. replace (0 - (0 - 0)) with 0 by lia.
  destruct (Z.leb_spec (r - (0 - 0)) 0); [lia|].
  replace (pre ++ 0 :: 0 :: t) with ((pre ++ [0]) ++ repeat 0 c ++ [0]) by (rewrite Ht, <- app_assoc; reflexivity).
  replace (zlen pre + 1) with (zlen (pre ++ [0])) by (rewrite zlen_app; reflexivity).
  replace (zlen pre + Z.of_nat (S c)) with (zlen (pre ++ [0]) + Z.of_nat c) by (rewrite zlen_app, zlen_one; lia).
  apply IH. lia.
Qed.
Lemma decp_zeros l : decp 0 l -> l = repeat 0 (length l).
Proof. induction l as [|x l IH]; simpl; auto. intros [H H']. assert (x = 0) by lia. subst. f_equal. auto. Qed.

Lemma rim_for_hook s : forall pre r prev, decp prev s -> 0 < r ->
  rim_for (zrange (zlen pre) (zlen pre + zlen s)) (pre ++ s ++ [0]) r =
  Ok (option_map (fun s' => pre ++ s' ++ [0]) (hook s r)).
Proof.
  induction s as [|x t IH]; intros pre r prev Hd Hr; [rewrite zrange_nil by (unfold zlen; simpl; lia); reflexivity|].
  destruct Hd as [Hx Hd]. rewrite zrange_cons by (rewrite zlen_cons; pose proof (zlen_nonneg t); lia).
  cbn [rim_for app]. rewrite (py_get_mid pre x (t ++ [0])) by auto. cbn [bind].
  assert (Hn : exists u, t ++ [0] = nth 0 t 0 :: u). { destruct t; simpl; eauto. }
  destruct Hn as [u Hu]. rewrite Hu. set (y := nth 0 t 0) in *.
  replace (pre ++ x :: y :: u) with ((pre ++ [x]) ++ y :: u) by (rewrite <- app_assoc; reflexivity).
  rewrite (py_get_mid (pre ++ [x]) y u) by (rewrite zlen_app; reflexivity). cbn [bind].
  replace ((pre ++ [x]) ++ y :: u) with (pre ++ x :: y :: u) by (rewrite <- app_assoc; reflexivity).
  cbn [hook]. fold y. destruct (Z.leb_spec r (x - y)) as [H1|H1].
  - rewrite (py_set_mid pre x (y :: u)) by auto. cbn [bind option_map]. rewrite <- Hu. reflexivity.
  - rewrite (py_set_mid pre x (y :: u)) by auto. cbn [bind]. destruct (Z.ltb_spec 0 y) as [H2|H2].
    + replace (x - (x - y + 1)) with (y - 1) by lia. destruct (Z.leb_spec (r - (x - y + 1)) 0) as [H3|H3].
      * rewrite (py_get_mid pre (y - 1) (y :: u)) by auto. cbn [bind].
        replace (pre ++ y - 1 :: y :: u) with ((pre ++ [y - 1]) ++ y :: u) by (rewrite <- app_assoc; reflexivity).
        rewrite (py_get_mid (pre ++ [y - 1]) y u) by (rewrite zlen_app; reflexivity). cbn [bind].
        destruct (Z.ltb_spec (y - 1) y); [reflexivity|lia].
      * replace (pre ++ y - 1 :: y :: u) with ((pre ++ [y - 1]) ++ t ++ [0]) by (rewrite Hu, <- app_assoc; reflexivity).
        replace (zlen pre + 1) with (zlen (pre ++ [y - 1])) by (rewrite zlen_app; reflexivity).
        replace (zlen pre + zlen (x :: t)) with (zlen (pre ++ [y - 1]) + zlen t) by (rewrite zlen_app, zlen_one, zlen_cons; lia).
        rewrite (IH (pre ++ [y - 1]) _ x Hd) by lia. destruct (hook t (r - (x - y + 1))); cbn [option_map]; auto.
        rewrite <- app_assoc. reflexivity.
    + assert (Hy : y = 0). { subst y. destruct t as [|z t]; auto. simpl in *. lia. }
      rewrite Hy in *. replace (x - (x - 0)) with 0 by lia. destruct (Z.leb_spec (r - (x - 0)) 0); [lia|].
      assert (Ht : t = repeat 0 (length t)). { destruct t as [|z t]; auto. subst y. cbn [nth] in *. destruct Hd as [_ Hd]. rewrite Hy in *. simpl. f_equal. apply decp_zeros; auto. }
      replace (pre ++ 0 :: 0 :: u) with ((pre ++ [0]) ++ repeat 0 (length t) ++ [0]) by (rewrite <- Ht, Hu, <- app_assoc; reflexivity).
      replace (zlen pre + 1) with (zlen (pre ++ [0])) by (rewrite zlen_app; reflexivity).
      replace (zlen pre + zlen (x :: t)) with (zlen (pre ++ [0]) + Z.of_nat (length t)) by (rewrite zlen_app, zlen_one, zlen_cons; unfold zlen; lia).
      cbn [option_map]. apply rim_zeros. lia.
Qed.

Lemma zsum_cons x l : zsum (x :: l) = x + zsum l.
Proof. reflexivity. Qed.
(** what [hook] does to the rows *)
Lemma hook_rows s : forall r s' prev, decp prev s -> 0 < r -> hook s r = Some s' ->
  length s' = length s /\ decp prev s' /\ zsum s' = zsum s - r /\
  exists b, (forall j, (j < b)%nat -> part s' j = part s (S j) - 1) /\
    part s (S b) <= part s' b < part s b /\ (forall j, (b < j)%nat -> part s' j = part s j).
Proof.
  induction s as [|x t IH]; intros r s' prev Hd Hr; cbn [hook]; [discriminate|]. destruct Hd as [Hx Hd].
  set (y := nth 0 t 0). assert (Hy : 0 <= y <= x) by (subst y; destruct t as [|z t]; simpl in *; lia).
  assert (Hdy : decp y t) by (subst y; destruct t as [|z t]; simpl in *; auto; split; [lia|tauto]).
  destruct (Z.leb_spec r (x - y)) as [H1|H1].
  - intros E. inversion E; subst s'. split; auto. split; [split; [lia|apply (decp_mono y); [lia|auto]]|].
    split; [rewrite !zsum_cons; lia|]. exists 0%nat. split; [intros; lia|]. split.
    + change (y <= x - r < x). lia.
    + intros [|j] Hj; [lia|]. reflexivity.
  - destruct (Z.ltb_spec 0 y) as [H2|H2]; [|discriminate]. destruct (Z.leb_spec (r - (x - y + 1)) 0) as [H3|H3]; [discriminate|].
    destruct (hook t (r - (x - y + 1))) as [u|] eqn:E; [|discriminate]. intros EE. inversion EE; subst s'. clear EE.
    destruct (IH _ _ y Hdy H3 E) as (L & D & Z & b & B1 & B2 & B3).
    split; [simpl; auto|]. split; [|split].
    + split; [lia|]. apply (decp_part (y - 1)); [lia|]. apply (decp_part y) in D; [|lia].
      destruct D as (D1 & D2 & D3). repeat split; auto.
      destruct b as [|b].
      * change (part t 0) with y in B2. lia.
      * rewrite (B1 0%nat) by lia. apply (decp_part y) in Hdy; [|lia]. destruct Hdy as (E1 & E2 & E3). specialize (E2 0%nat). destruct E2 as [E2|E2]; [change (part t 0) with y in E2; lia|]. rewrite (part_over t 1) by lia. lia.
    + rewrite !zsum_cons. lia.
    + exists (S b). split; [|split].
      * intros [|j] Hj; [change (y - 1 = y - 1); lia|]. apply (B1 j). lia.
      * exact B2.
      * intros [|j] Hj; [lia|]. apply (B3 j). lia.
Qed.

(** conversely a hook of [r] boxes starting in the first row is found *)
Lemma hook_complete s : forall r s' prev b, decp prev s -> 0 < r -> length s' = length s -> zsum s' = zsum s - r ->
  (forall j, (j < b)%nat -> part s' j = part s (S j) - 1) -> part s (S b) <= part s' b < part s b ->
  (forall j, (b < j)%nat -> part s' j = part s j) -> (forall j, (j <= b)%nat -> 0 <= part s' j) -> hook s r = Some s'.
Proof.
  induction s as [|x t IH]; intros r s' prev b Hd Hr L Z B1 B2 B3 B4.
  - exfalso. unfold part in B2. destruct b; simpl in B2; lia.
  - destruct s' as [|x' t']; [discriminate|]. destruct Hd as [Hx Hd]. cbn [hook]. set (y := nth 0 t 0).
    assert (Hdy : decp y t) by (subst y; destruct t as [|z t]; simpl in *; auto; split; [lia|tauto]).
    assert (Hsum : forall z l, zsum (z :: l) = z + zsum l) by reflexivity. rewrite !Hsum in Z.
    destruct b as [|b].
    + assert (Et : t' = t).
      { apply list_part_eq; [simpl in L; lia|]. intros j _. apply (B3 (S j)). lia. }
      subst t'. change (y <= x' < x) in B2.
      destruct (Z.leb_spec r (x - y)); [|lia]. do 2 f_equal. lia.
    + pose proof (B1 0%nat ltac:(lia)) as E. change (x' = y - 1) in E.
      pose proof (B4 0%nat ltac:(lia)) as E0. unfold part in E0. cbn [nth] in E0.
      assert (Hz : zsum t' < zsum t).
      { clear -L B1 B2 B3 B4 Hd Hx. 
        assert (G : forall c u u', length u' = length u -> (forall j, (j < c)%nat -> part u' j = part u (S j) - 1) ->
          (forall j, (j < c)%nat -> part u (S j) <= part u j) -> 
          part u' c < part u c -> (forall j, (c < j)%nat -> part u' j = part u j) -> zsum u' < zsum u).
        { clear. induction c as [|c IHc]; intros u u' L A D A2 A3.
          - destruct u as [|a u]; [exfalso; destruct u'; [|discriminate]; unfold part in A2; simpl in A2; lia|].
            destruct u' as [|a' u']; [discriminate|]. replace u' with u.
            + unfold part in A2; cbn [nth] in A2. rewrite !zsum_cons; lia.
            + symmetry. apply list_part_eq; [simpl in L; lia|]. intros j _. apply (A3 (S j)). lia.
          - destruct u as [|a u]; [exfalso; destruct u'; [|discriminate]; unfold part in A2; simpl in A2; lia|].
            destruct u' as [|a' u']; [discriminate|].
            assert (zsum u' < zsum u).
            { apply IHc; [simpl in L; lia| | | |]; auto.
              - intros j Hj. apply (A (S j)). lia.
              - intros j Hj. apply (D (S j)). lia.
              - intros j Hj. apply (A3 (S j)). lia. }
            specialize (A 0%nat ltac:(lia)). specialize (D 0%nat ltac:(lia)). unfold part in A, D. cbn [nth] in A, D.
            rewrite !zsum_cons. lia. }
        apply (G b); [simpl in L; lia| | | |].
        - intros j Hj. apply (B1 (S j)). lia.
        - intros j Hj. apply (decp_part x) in Hd.
          + destruct Hd as (D1 & D2 & _). destruct (D2 j) as [D|D]; auto. rewrite (part_over t (S j)) by lia.
            destruct (Nat.lt_ge_cases j (length t)); [apply D1; auto|rewrite (part_over t j) by auto; reflexivity].
          + lia.
        - apply B2.
        - intros j Hj. apply (B3 (S j)). lia. }
      destruct (Z.leb_spec r (x - y)); [lia|]. destruct (Z.ltb_spec 0 y); [|lia].
      destruct (Z.leb_spec (r - (x - y + 1)) 0); [lia|].
      rewrite (IH (r - (x - y + 1)) t' y b).
      * rewrite E. reflexivity.
      * auto.
      * lia.
      * simpl in L. lia.
      * lia.
      * intros j Hj. apply (B1 (S j)). lia.
      * exact B2.
      * intros j Hj. apply (B3 (S j)). lia.
      * intros j Hj. apply (B4 (S j)). lia.
Qed.

(** ** On partitions *)
Lemma decp_valid prev l : decp prev l -> is_valid_part l = true.
Proof.
  intros H. apply valid_part_iff. assert (Hn := decp_nonneg _ _ H). split.
  - intros j Hj. rewrite Forall_forall in Hn. apply Hn, nth_In; auto.
  - intros i j [Hij Hj]. revert prev H i j Hij Hj. clear Hn. induction l as [|x l IH]; intros prev Hd i j Hij Hj; [simpl in Hj; lia|]. destruct Hd as [Hx Hd].
    destruct i as [|i], j as [|j]; try lia.
    + apply (decp_part x) in Hd; [|lia]. clear IH. assert (forall d, (d < length l)%nat -> part l d <= x) as G.
      { destruct Hd as (D1 & D2 & D3). induction d; [auto|]. intros Hd. destruct (D2 d); [|lia]. specialize (IHd ltac:(lia)). lia. }
      apply (G j). simpl in Hj. lia.
    + apply (IH x Hd i j); simpl in Hj; lia.
Qed.
Lemma decp_noninc prev l : decp prev l -> is_non_increasing l = true.
Proof. intros H. apply decp_valid in H. unfold is_valid_part in H. destruct (is_non_increasing l); auto. destruct (forallb _ l); discriminate. Qed.
Lemma part_decp l : is_partition l -> decp (part l 0) l.
Proof. intros H. apply is_partition_decp; auto. lia. Qed.
Lemma decp_app_zero prev l : 0 <= prev -> decp prev l -> decp prev (l ++ [0]).
Proof. intros H1 H2. apply (decp_app0 prev l 1); auto. Qed.
Lemma clip_app_zero l : part_clip (l ++ [0]) = part_clip l.
Proof. apply (part_clip_app0 l 1). Qed.

Lemma part_app_zeros l c j : part (l ++ repeat 0 c) j = part l j.
Proof. replace (repeat 0 c) with (repz 0 (Z.of_nat c)) by (unfold repz; rewrite Nat2Z.id; auto). apply part_app0. Qed.
(** the next partition, when there is one *)
Definition next_hook (r : Z) (l : list Z) : option (list Z) := option_map part_clip (hook l r).
Lemma next_hook_iff r l mu : is_partition l -> 0 < r -> (next_hook r l = Some mu <-> top_hook r l mu).
Proof.
  intros Hl Hr. assert (Hd := part_decp l Hl). assert (H0 := is_partition_nonneg l 0 Hl). unfold next_hook. split.
  - destruct (hook l r) as [s|] eqn:E; [|discriminate]. intros EE. inversion EE; subst mu. clear EE.
    destruct (hook_rows l r s _ Hd Hr E) as (L & D & S & b & B1 & B2 & B3). split.
    + rewrite !size_zsum, zsum_clip. lia.
    + exists b. split; auto. split; [eapply decp_is_partition; eauto|]. split; [lia|]. split; [intros; lia|].
      split; [intros j Hj; rewrite part_clip_part; apply B1; lia|]. split; [rewrite part_clip_part; lia|].
      intros j Hj. rewrite part_clip_part. auto.
  - intros (SS & b & _ & Hm & _ & _ & B1 & B2 & B3).
    assert (Hlen : (length mu <= length l)%nat).
    { destruct (Nat.le_gt_cases (length mu) (length l)) as [|Hlt]; auto. exfalso.
      assert (P := proj1 Hm (length l) Hlt). destruct (Nat.lt_trichotomy (length l) b) as [Q|[Q|Q]].
      - rewrite B1 in P by lia. rewrite part_over in P by lia. lia.
      - subst b. rewrite (part_over l) in B2 by lia. lia.
      - rewrite B3 in P by lia. rewrite part_over in P by lia. lia. }
    assert (Hp : part l (Datatypes.S b) <= part mu b). { rewrite <- B3 by lia. apply Hm. }
    rewrite (hook_complete l r (mu ++ repeat 0 (length l - length mu)) (part l 0) b); auto.
    + cbn [option_map]. f_equal. replace (repeat 0 (length l - length mu)) with (repz 0 (Z.of_nat (length l - length mu))) by (unfold repz; rewrite Nat2Z.id; auto).
      rewrite part_clip_app0. apply is_partition_clip; auto.
    + rewrite app_length, repeat_length. lia.
    + replace (repeat 0 (length l - length mu)) with (repz 0 (Z.of_nat (length l - length mu))) by (unfold repz; rewrite Nat2Z.id; auto).
      rewrite zsum_app, zsum_repz0. rewrite (size_zsum l), (size_zsum mu) in SS. lia.
    + intros j Hj. rewrite part_app_zeros. apply B1. lia.
    + rewrite part_app_zeros. lia.
    + intros j Hj. rewrite part_app_zeros. auto.
    + intros j Hj. rewrite part_app_zeros. apply is_partition_nonneg; auto.
Qed.
Lemma next_hook_part r l mu : is_partition l -> 0 < r -> next_hook r l = Some mu -> is_partition mu /\ zsum mu = zsum l - r.
Proof.
  intros Hl Hr H. apply next_hook_iff in H; auto. destruct H as (SS & b & _ & Hm & _). split; auto. rewrite (size_zsum l), (size_zsum mu) in SS. lia.
Qed.
Lemma top_hook_fun r l mu nu : 0 < r -> top_hook r l mu -> top_hook r l nu -> mu = nu.
Proof.
  intros Hr H1 H2. assert (Hl : is_partition l) by (destruct H1 as (_ & b & Hl & _); auto).
  apply next_hook_iff in H1; auto. apply next_hook_iff in H2; auto. congruence.
Qed.

(** ** The loop *)
Section Loop.
Variables (orig : list Z) (r nrow ncol : Z).
Hypothesis (Hr : 0 < r) (Hnr : 0 <= nrow) (Hnc : 0 <= ncol) (Ho : is_partition orig).
Let stop := in_box nrow ncol.

(** [mu] reached from [orig] by hooks, at least 0 *)
Definition reached (c : Z) (mu : list Z) : Prop := (c = 0 /\ mu = orig) \/ (0 < c /\ top_hooks stop r c orig mu /\ ~ stop mu).

Lemma top_hooks_pos c l mu : top_hooks stop r c l mu -> 0 < c.
Proof. induction 1; lia. Qed.
Lemma top_hooks_part c l mu : top_hooks stop r c l mu -> is_partition mu.
Proof. induction 1 as [? ? (_ & b & H)|? ? ? ? ? ? ? (_ & b & H)]; apply H. Qed.
Lemma top_hooks_size c l mu : top_hooks stop r c l mu -> size mu = size l - c * r.
Proof. induction 1 as [? ? (H & _)|? ? ? ? ? ? ? (H & _)]; lia. Qed.
Lemma reached_part c mu : reached c mu -> is_partition mu.
Proof. intros [[_ ->]|(_ & H & _)]; auto. eapply top_hooks_part; eauto. Qed.
Lemma reached_step c mu nu : reached c mu -> top_hook r mu nu -> top_hooks stop r (c + 1) orig nu.
Proof. intros [[-> ->]|(_ & H & Hs)] HH; [apply th_one; auto|eapply th_more; eauto]. Qed.

(** hooks are deterministic: with [mu] reached, every further chain goes through it *)
Lemma chain_det c mu c' nu : top_hooks stop r c orig mu -> top_hooks stop r c' orig nu -> c = c' -> mu = nu.
Proof.
  intros H. revert c' nu. induction H as [l mu H|c l rho mu H IH Hs H']; intros c' nu HH E.
  - inversion HH; subst; [eapply top_hook_fun; eauto|]. apply top_hooks_pos in H0. lia.
  - inversion HH; subst; [apply top_hooks_pos in H; lia|].
    assert (rho = nu0) by (eapply IH; eauto; lia). subst. eapply top_hook_fun; eauto.
Qed.
Lemma chain_prefix c mu : top_hooks stop r c orig mu -> forall c', 0 < c' < c ->
  exists nu, top_hooks stop r c' orig nu /\ ~ stop nu /\ exists rho, top_hook r nu rho.
Proof.
  induction 1 as [l mu H|c l rho mu H IH Hs H']; intros c' Hc; [lia|].
  destruct (Z.eq_dec c' c) as [->|]; [eauto|]. apply IH; auto. lia.
Qed.
Lemma chain_first c mu : top_hooks stop r c orig mu -> exists nu, top_hook r orig nu.
Proof. induction 1; eauto. Qed.

Lemma top_hook_le l mu j : top_hook r l mu -> part mu j <= part l j.
Proof.
  intros (_ & b & Hl & Hm & _ & _ & B1 & B2 & B3). destruct (Nat.lt_trichotomy j b) as [Q|[Q|Q]].
  - rewrite B1 by lia. pose proof (proj2 Hl j). lia.
  - subst. lia.
  - rewrite B3 by lia. lia.
Qed.
Lemma top_hooks_le c l mu : top_hooks stop r c l mu -> forall j, part mu j <= part l j.
Proof. induction 1 as [? ? H|? ? ? ? ? IH ? H]; intros j; pose proof (top_hook_le _ _ j H); auto. specialize (IH j). lia. Qed.
Lemma skew_contained_ok lam mu : is_partition lam -> (forall j, part lam j <= part mu j) -> (forall j, (length mu <= j)%nat -> part mu j = 0) -> skew_contained lam mu = Ok tt.
Proof.
  intros [Hl _] Hle _. revert mu Hle. induction lam as [|a lam IH]; intros mu Hle; [reflexivity|].
  destruct mu as [|b mu].
  - specialize (Hl 0%nat ltac:(simpl; lia)). specialize (Hle 0%nat). unfold part in *. simpl in *. lia.
  - cbn [skew_contained]. destruct (Z.ltb_spec b a) as [Q|Q]; [specialize (Hle 0%nat); unfold part in Hle; simpl in Hle; lia|].
    apply IH.
    + intros j Hj. apply (Hl (S j)). simpl. lia.
    + intros j. apply (Hle (S j)).
Qed.
Lemma height_ok c cur nu : reached c cur -> top_hook r cur nu -> exists h, skew_partition_height nu orig = Ok h.
Proof.
  intros HR HT. assert (HC := reached_step _ _ _ HR HT). unfold skew_partition_height. destruct nu as [|a nu]; [eauto|].
  rewrite skew_contained_ok; [eexists; reflexivity|exact (top_hooks_part _ _ _ HC)|intros j; exact (top_hooks_le _ _ _ HC j)|intros; apply part_over; auto].
Qed.

Lemma body_step c cur : reached c cur ->
  match next_hook r cur with
  | None => rim_body orig r nrow ncol (cur, c) = Ok (Done (None, 0, 0))
  | Some nu => exists b, is_in_range nu nrow ncol = Ok b /\ (b = true <-> stop nu) /\
      rim_body orig r nrow ncol (cur, c) =
        if b then (h <- skew_partition_height nu orig ;; Ok (Done (Some nu, c + 1, h))) else Ok (Next (nu, c + 1))
  end.
Proof.
  intros HR. assert (Hp := reached_part _ _ HR). assert (Hd := part_decp cur Hp). assert (H0 := is_partition_nonneg cur 0 Hp).
  unfold rim_body. cbn zeta. 
  replace (zrange 0 (zlen (cur ++ [0]) - 1)) with (zrange (zlen (@nil Z)) (zlen (@nil Z) + zlen cur))
    by (rewrite zlen_app, zlen_one, zlen_nil; f_equal; lia).
  change (cur ++ [0]) with ([] ++ cur ++ [0]). rewrite (rim_for_hook cur [] r _ Hd Hr).
  unfold next_hook. destruct (hook cur r) as [s|] eqn:E; cbn [option_map bind]; [|reflexivity].
  assert (HN : next_hook r cur = Some (part_clip s)) by (unfold next_hook; rewrite E; auto).
  destruct (next_hook_part _ _ _ Hp Hr HN) as [Hq Hz].
  destruct (hook_rows cur r s _ Hd Hr E) as (L & D & S & _).
  cbn [app]. rewrite (decp_noninc (part cur 0)) by (apply decp_app_zero; auto). cbn [negb].
  rewrite clip_app_zero. rewrite (proj2 (mk_partition_iff (part_clip s) (part_clip s))) by (split; auto; eapply decp_valid, part_decp; auto).
  cbn [bind]. destruct (in_range_iff (part_clip s) nrow ncol Hnr Hnc Hq) as (b & Eb & Hb). rewrite Eb. cbn [bind].
  exists b. split; auto. split; auto. destruct b; auto.
  replace (zlist_eqb (part_clip s) cur) with false; auto. symmetry. apply not_true_iff_false. intros EQ. apply zlist_eqb_eq in EQ. rewrite EQ in Hz. lia.
Qed.

Lemma loop_ok fuel : forall c cur, reached c cur -> zsum cur < Z.of_nat fuel ->
  exists x c' h, loop fuel (rim_body orig r nrow ncol) (cur, c) = Ok (x, c', h) /\
    ((x = None /\ c' = 0 /\ h = 0 /\ exists d mu, reached d mu /\ next_hook r mu = None) \/
     (exists mu, x = Some mu /\ 0 < c' /\ stop mu /\ top_hooks stop r c' orig mu /\ skew_partition_height mu orig = Ok h)).
Proof.
  induction fuel as [|f IH]; intros c cur HR Hf.
  { exfalso. assert (Hp := reached_part _ _ HR). pose proof (zsum_nonneg cur (decp_nonneg _ _ (part_decp _ Hp))). lia. }
  cbn [loop]. assert (B := body_step c cur HR). assert (Hp := reached_part _ _ HR).
  destruct (next_hook r cur) as [nu|] eqn:E.
  - destruct B as (b & Eb & Hb & EB). rewrite EB. assert (HT := proj1 (next_hook_iff r cur nu Hp Hr) E).
    assert (HC := reached_step _ _ _ HR HT). destruct (next_hook_part _ _ _ Hp Hr E) as [Hq Hz].
    destruct b.
    + destruct (height_ok c cur nu HR HT) as [h Eh]. rewrite Eh. cbn [bind].
      exists (Some nu), (c + 1), h. split; auto. right. exists nu. split; auto. split; [eapply top_hooks_pos; eauto|]. split; [apply Hb; auto|]. auto.
    + cbn [bind]. apply IH; [|lia]. right. split; [eapply top_hooks_pos; eauto|]. split; auto. intros H. apply Hb in H. discriminate.
  - rewrite B. cbn [bind]. exists None, 0, 0. split; auto. left. repeat split; auto. exists c, cur. auto.
Qed.
End Loop.

Lemma skew_count_rows mu : forall lam, (forall j, 0 <= part lam j) ->
  exists L, NoDup L /\ (forall j, In j L <-> part lam j < part mu j) /\ skew_count lam mu = Z.of_nat (length L).
Proof.
  induction mu as [|b mu IH]; intros lam Hl.
  - exists []. split; [constructor|]. split; auto. intros j. split; [intros []|]. specialize (Hl j). unfold part at 2. destruct j; simpl; lia.
  - cbn [skew_count]. assert (Hs : forall j, part (tl lam) j = part lam (S j)) by (intros j; destruct lam; [destruct j; reflexivity|reflexivity]).
    destruct (IH (tl lam)) as (L & L1 & L2 & L3); [intros j; rewrite Hs; apply Hl|].
    set (a := match lam with [] => 0 | a :: _ => a end). assert (Ha : part lam 0 = a) by (destruct lam; reflexivity).
    exists ((if a <? b then [0%nat] else []) ++ map S L). split; [|split].
    + apply nodup_app.
      * destruct (a <? b); repeat constructor. intros [].
      * apply FinFun.Injective_map_NoDup; auto. intros x y E. lia.
      * intros x Hx Hx'. apply in_map_iff in Hx'. destruct Hx' as (y & <- & _). destruct (a <? b); [|contradiction]. destruct Hx as [Hx|[]]. discriminate.
    + intros j. rewrite in_app_iff, in_map_iff. split.
      * intros [H|(y & <- & H)].
        -- destruct (Z.ltb_spec a b); [|contradiction]. destruct H as [<-|[]]. rewrite Ha. exact H0.
        -- apply L2 in H. rewrite Hs in H. exact H.
      * intros H. destruct j as [|j].
        -- left. rewrite Ha in H. change (a < b) in H. destruct (Z.ltb_spec a b); [left; auto|lia].
        -- right. exists j. split; auto. apply L2. rewrite Hs. exact H.
    + rewrite L3, app_length, map_length. destruct (a <? b); simpl length; lia.
Qed.
Lemma height_rows mu orig h : is_partition orig -> is_partition mu -> (forall j, part mu j <= part orig j) ->
  skew_partition_height mu orig = Ok h -> rows_changed orig mu h.
Proof.
  intros Ho Hm Hle. unfold skew_partition_height. destruct (skew_count_rows orig mu (fun j => is_partition_nonneg mu j Hm)) as (L & L1 & L2 & L3).
  destruct mu as [|a mu].
  - intros E. inversion E. exists (seq 0 (length orig)). split; [apply seq_NoDup|]. split; [|rewrite seq_length; reflexivity].
    intros j. rewrite in_seq. split.
    + intros [_ H]. replace (part [] j) with 0 by (destruct j; reflexivity). apply Ho. lia.
    + intros H. split; [lia|]. destruct (Nat.lt_ge_cases j (length orig)); [lia|]. rewrite (part_over orig) in H by auto. unfold part in H; destruct j; simpl in H; lia.
  - destruct (skew_contained (a :: mu) orig); cbn [bind]; [|discriminate]. intros E. inversion E. exists L. auto.
Qed.

Lemma c28_main l r nrow ncol : is_partition l -> 0 < r -> 0 <= nrow -> 0 <= ncol ->
  exists x c h, remove_rim_hooks l r nrow ncol = Ok (x, c, h) /\ 0 <= c /\
    (0 < c -> exists mu, x = Some mu /\ in_box nrow ncol mu /\ top_hooks (in_box nrow ncol) r c l mu /\
       size mu = size l - c * r /\ rows_changed l mu h) /\
    ((exists c' mu, top_hooks (in_box nrow ncol) r c' l mu /\ in_box nrow ncol mu) -> 0 < c) /\
    (c = 0 -> x = None \/ x = Some []).
Proof.
  intros Hl Hr Hnr Hnc. unfold remove_rim_hooks.
  assert (Hbig : size l < r -> forall c' mu, ~ top_hooks (in_box nrow ncol) r c' l mu).
  { intros Hb c' mu H. destruct (chain_first l r nrow ncol Hl c' mu H) as (nu & S & b & _ & Hn & _).
    pose proof (zsum_nonneg nu (decp_nonneg _ _ (part_decp _ Hn))) as Q. rewrite <- size_zsum in Q. lia. }
  destruct l as [|x0 l0] eqn:El.
  { exists (Some []), 0, 0. split; auto. split; [lia|]. split; [lia|]. split; auto. intros (c' & mu & H & _). exfalso. apply (Hbig ltac:(simpl; lia) _ _ H). }
  rewrite <- El in *. destruct (Z.leb_spec r 0); [lia|]. destruct (Z.ltb_spec (max_rim_size l) r) as [Hm|Hm].
  { exists (Some []), 0, 0. split; auto. split; [lia|]. split; [lia|]. split; auto. intros (c' & mu & H' & _). exfalso.
    apply (Hbig ltac:(unfold max_rim_size in Hm; rewrite size_zsum; rewrite El in *; rewrite zlen_cons in Hm; pose proof (zlen_nonneg l0); lia) _ _ H'). }
  destruct (loop_ok l r nrow ncol Hr Hnr Hnc Hl (Z.to_nat (zsum l) + 1) 0 l) as (x & c & h & E & HH).
  { left. auto. }
  { pose proof (zsum_nonneg l (decp_nonneg _ _ (part_decp _ Hl))). lia. }
  exists x, c, h. split; auto. destruct HH as [(-> & -> & -> & d & mu & HR & HN)|(mu & -> & Hc & Hs & HT & Hh)].
  - split; [lia|]. split; [lia|]. split; auto. intros (c' & nu & HT & Hs). exfalso.
    assert (Hp := reached_part _ _ _ _ Hl _ _ HR).
    assert (Hno : forall rho, ~ top_hook r mu rho). { intros rho H'. apply next_hook_iff in H'; auto. congruence. }
    destruct HR as [[-> ->]|(Hd & HD & Hns)].
    + destruct (chain_first _ _ _ _ Hl _ _ HT) as (rho & H'). exact (Hno _ H').
    + destruct (Z.lt_trichotomy d c') as [Q|[Q|Q]].
      * destruct (chain_prefix _ _ _ _ Hl _ _ HT d ltac:(lia)) as (rho & H1 & _ & tau & H2).
        assert (mu = rho) by (eapply (chain_det l r nrow ncol Hr Hl); eauto). subst. exact (Hno _ H2).
      * assert (mu = nu) by (eapply (chain_det l r nrow ncol Hr Hl); eauto). subst. auto.
      * destruct (chain_prefix _ _ _ _ Hl _ _ HD c') as (rho & H1 & H2 & _); [split; auto; eapply top_hooks_pos; eauto|].
        assert (nu = rho) by (eapply (chain_det l r nrow ncol Hr Hl); eauto). subst. auto.
  - split; [lia|]. split; [|split; auto; lia]. intros _. exists mu. split; auto. split; auto. split; auto. split; [eapply top_hooks_size; eauto|].
    apply (height_rows mu l h Hl); auto; [apply Hs|]. intros j. eapply top_hooks_le; eauto.
Qed.
