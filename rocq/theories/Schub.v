(** The enumerations of classes: part_gen and all_kstrict. *)

From Coq Require Import ZArith List Lia Bool Permutation Sorted.
From Verif Require Import Py OrderFacts ModelPart ModelQcalc ModelPoly ModelStr ModelGr Spec
  PyFacts PartFacts Enum.
Import ListNotations.
Open Scope Z_scope.

Section K.
Variable k : Z.
Hypothesis Hk : 0 <= k.

(** the largest value allowed after [x] *)
Definition dn (x : Z) : Z := if k <? x then x - 1 else x.
Fixpoint kdec (prev : Z) (l : list Z) : Prop :=
  match l with [] => True | x :: t => 0 <= x <= prev /\ kdec (dn x) t end.
Fixpoint kfill (x : Z) (c : nat) : list Z :=
  match c with O => [] | S c => x :: kfill (dn x) c end.
Fixpoint knext (l : list Z) : option (list Z) :=
  match l with
  | [] => None
  | x :: t => match knext t with
              | Some t' => Some (x :: t')
              | None => if 0 <? x then Some (kfill (x - 1) (S (length t))) else None
              end
  end.

Lemma dn_nonneg x : 0 <= x -> 0 <= dn x.
Proof. unfold dn. destruct (k <? x) eqn:E; lia. Qed.
Lemma dn_le x : dn x <= x.
Proof. unfold dn. destruct (k <? x) eqn:E; lia. Qed.
Lemma dn_mono x y : x <= y -> dn x <= dn y.
Proof. unfold dn. destruct (k <? x) eqn:E, (k <? y) eqn:E'; lia. Qed.

Lemma kfill_len x c : length (kfill x c) = c.
Proof. revert x. induction c; intros; simpl; auto. Qed.
Lemma kfill_kdec x c : forall prev, 0 <= x <= prev -> kdec prev (kfill x c).
Proof.
  revert x. induction c as [|c IH]; intros x prev H; simpl; auto. split; auto.
  apply IH. pose proof (dn_nonneg x). lia.
Qed.
Lemma kdec_mono a b l : a <= b -> kdec a l -> kdec b l.
Proof. destruct l; simpl; auto. intros H [H1 H2]. split; auto. lia. Qed.
Lemma kdec_decp prev l : kdec prev l -> decp prev l.
Proof.
  revert prev. induction l as [|x t IH]; simpl; auto. intros prev [H1 H2]. split; auto.
  apply IH. eapply kdec_mono; [apply dn_le|auto].
Qed.
Lemma kdec_rng B prev l : prev <= B -> kdec prev l -> rng B l.
Proof.
  revert prev. induction l as [|x t IH]; intros prev HB; [constructor|]. intros [H1 H2]. constructor; [lia|].
  apply (IH (dn x)); auto. pose proof (dn_le x). lia.
Qed.

Variable B : Z.
Hypothesis HB : 0 <= B.

Lemma kfill_max prev l : prev <= B -> kdec prev l -> 0 <= prev ->
  rank B l <= rank B (kfill prev (length l)).
Proof.
  revert prev. induction l as [|x t IH]; intros prev Hp Hd H0; [simpl; lia|].
  destruct Hd as [H1 H2]. cbn [length kfill].
  pose proof (dn_le prev).
  destruct (Z.eq_dec x prev) as [->|Hne].
  - simpl. rewrite kfill_len. specialize (IH (dn prev) ltac:(lia) H2 (dn_nonneg _ H0)). lia.
  - assert (rank B (x :: t) < rank B (prev :: kfill (dn prev) (length t))); [|lia].
    apply rank_lt_head; auto; [| |rewrite kfill_len; auto|lia].
    + constructor; [lia|]. apply (kdec_rng B (dn x)); auto. pose proof (dn_le x). lia.
    + constructor; [lia|]. apply (kdec_rng B (dn prev)); [lia|]. apply kfill_kdec.
      pose proof (dn_nonneg prev). lia.
Qed.

Lemma knext_spec l : forall prev, prev <= B -> kdec prev l ->
  (knext l = None /\ forall c, kdec prev c -> length c = length l -> rank B l <= rank B c) \/
  (exists b, knext l = Some b /\ kdec prev b /\ length b = length l /\ rank B b < rank B l /\
     forall c, kdec prev c -> length c = length l -> rank B c < rank B l -> rank B c <= rank B b).
Proof.
  induction l as [|x t IH]; intros prev Hp Hd.
  - left. split; auto. intros [|y c] _ Hl; [lia|discriminate].
  - destruct Hd as [H1 H2]. pose proof (dn_le x) as Hdn.
    assert (Rx : rng B (x :: t)).
    { constructor; [lia|]. apply (kdec_rng B (dn x)); auto. lia. }
    assert (Hhead : forall y c, kdec prev (y :: c) -> length c = length t -> y <> x ->
      (y < x /\ rank B (y :: c) < rank B (x :: t)) \/ (x < y /\ rank B (x :: t) < rank B (y :: c))).
    { intros y c Hc Hl Hne. assert (rng B (y :: c)) by (apply (kdec_rng B prev); auto).
      destruct (Z.lt_total y x) as [Hy|[Hy|Hy]]; [left|congruence|right]; split; auto; apply rank_lt_head; auto. }
    cbn [knext]. destruct (IH (dn x) ltac:(lia) H2) as [[E Hmin]|(b & E & Hb & Lb & Rb & Hmax)]; rewrite E.
    + destruct (0 <? x) eqn:E0.
      * right. exists (kfill (x - 1) (S (length t))). apply Z.ltb_lt in E0.
        split; auto. split; [apply kfill_kdec; lia|]. split; [apply kfill_len|]. split.
        -- cbn [kfill]. apply rank_lt_head; auto; [|apply kfill_len|lia].
           apply (kdec_rng B prev); auto. change (x - 1 :: kfill (dn (x - 1)) (length t)) with (kfill (x - 1) (S (length t))).
           apply kfill_kdec; lia.
        -- intros [|y c] Hc Hl Hr; [discriminate|]. injection Hl as Hl.
           destruct (Z.eq_dec y x) as [->|Hne].
           { destruct Hc as [_ Hc]. specialize (Hmin c Hc Hl). apply rank_cons_lt in Hr; auto. lia. }
           destruct (Hhead y c Hc Hl Hne) as [[Hy _]|[_ Hy]]; [|lia].
           rewrite <- Hl. apply (kfill_max (x - 1) (y :: c)); try lia.
           destruct Hc as [Hc1 Hc2]. split; auto. lia.
      * left. split; auto. apply Z.ltb_ge in E0. intros [|y c] Hc Hl; [discriminate|]. injection Hl as Hl.
        destruct (Z.eq_dec y x) as [->|Hne].
        { destruct Hc as [_ Hc]. specialize (Hmin c Hc Hl). simpl. rewrite Hl. lia. }
        destruct (Hhead y c Hc Hl Hne) as [[Hy _]|[_ Hy]]; [|lia]. destruct Hc. lia.
    + right. exists (x :: b). split; auto. split; [split; auto|]. split; [simpl; lia|]. split.
      * apply rank_cons_lt; auto.
      * intros [|y c] Hc Hl Hr; [discriminate|]. injection Hl as Hl.
        destruct (Z.eq_dec y x) as [->|Hne].
        { destruct Hc as [_ Hc]. apply rank_cons_lt in Hr; auto. specialize (Hmax c Hc Hl Hr).
          simpl. rewrite Hl, Lb. lia. }
        destruct (Hhead y c Hc Hl Hne) as [[Hy _]|[_ Hy]]; [|lia].
        assert (rank B (y :: c) < rank B (x :: b)); [|lia].
        apply rank_lt_head; auto; [| |lia].
        -- apply (kdec_rng B prev); auto.
        -- apply (kdec_rng B prev); auto. split; auto.
Qed.

(** closed form of [knext] *)
Lemma knext_zero c : knext (repz 0 c) = None.
Proof. unfold repz. induction (Z.to_nat c) as [|n IH]; simpl; auto. rewrite IH. reflexivity. Qed.
Lemma knext_app pre x c : 0 < x -> 0 <= c -> knext (pre ++ x :: repz 0 c) = Some (pre ++ kfill (x - 1) (Z.to_nat (c + 1))).
Proof.
  intros Hx Hc. induction pre as [|y pre IH].
  - cbn [app knext]. rewrite knext_zero. replace (0 <? x) with true by (symmetry; apply Z.ltb_lt; auto).
    do 2 f_equal. unfold repz. rewrite repeat_length. lia.
  - cbn [app knext]. rewrite IH. auto.
Qed.

Lemma kfill_formula c : forall x, 0 <= x ->
  kfill x c = map (fun j => if x <=? k then x else Z.max k (x - j)) (zrange 0 (Z.of_nat c)).
Proof.
  induction c as [|c IH]; intros x Hx; [reflexivity|].
  rewrite zrange_cons by lia. cbn [kfill map].
  rewrite IH by (apply dn_nonneg; auto).
  f_equal; [destruct (x <=? k) eqn:E; lia|].
  replace (zrange (0 + 1) (Z.of_nat (S c))) with (zrange (0 + 1) (Z.of_nat c + 1)) by (f_equal; lia).
  rewrite zrange_shift, map_map. apply map_ext_in. intros j Hj. apply in_zrange in Hj. unfold dn.
  destruct (k <? x) eqn:E1, (x <=? k) eqn:E2; try lia.
  destruct (x - 1 <=? k) eqn:E3; lia.
Qed.
End K.

(** every list ends in zeros after its clipped part *)
Lemma clip_cases l : (part_clip l = [] /\ exists c, 0 <= c /\ l = repz 0 c) \/
  exists pre x c, x <> 0 /\ 0 <= c /\ l = pre ++ x :: repz 0 c /\ part_clip l = pre ++ [x].
Proof.
  destruct (part_clip_spec l) as (c & Hc & E).
  destruct (rev (part_clip l)) as [|y t'] eqn:Er; apply (f_equal (@rev Z)) in Er; rewrite rev_involutive in Er; simpl in Er; [|set (t := rev t') in *].
  - left. split; auto. exists c. split; auto. rewrite Er in E. auto.
  - right. exists t, y, c. split; [|split; [auto|]].
    + intros ->. pose proof (part_clip_idem l) as Hi. rewrite Er in Hi.
      change (t ++ [0]) with (t ++ repz 0 1) in Hi. rewrite part_clip_app0 in Hi.
      assert (zlen (part_clip t) = zlen (t ++ [0])) by (rewrite Hi; auto).
      pose proof (zlen_clip t). rewrite zlen_app, zlen_one in *. lia.
    + rewrite Er in *. split; auto. rewrite E, <- app_assoc. auto.
Qed.

Lemma repz_map (x : Z) c : repz x c = map (fun _ => x) (zrange 0 c).
Proof.
  unfold repz, zrange. rewrite map_map, Z.sub_0_r. generalize 0%nat.
  induction (Z.to_nat c); intros; simpl; f_equal; auto.
Qed.
Lemma kfill_repz k x c : 0 <= x <= k -> 0 <= k -> 0 <= c -> kfill k x (Z.to_nat c) = repz x c.
Proof.
  intros. rewrite kfill_formula by lia. rewrite repz_map, Z2Nat.id by lia. apply map_ext. intros.
  destruct (x <=? k) eqn:E; lia.
Qed.
Lemma zrange_split a b c : a <= b <= c -> zrange a c = zrange a b ++ zrange b c.
Proof.
  intros H. replace c with (b + Z.of_nat (Z.to_nat (c - b))) by lia.
  induction (Z.to_nat (c - b)) as [|n IH].
  - rewrite Z.add_0_r, (zrange_nil b b) by lia. rewrite app_nil_r; auto.
  - rewrite (zrange_snoc a), (zrange_snoc b) by lia.
    replace (b + Z.of_nat (S n) - 1) with (b + Z.of_nat n) by lia. rewrite IH, app_assoc. auto.
Qed.

Definition olist (o : option (list Z)) : list Z := match o with Some b => b | None => [] end.

Lemma itr_knext k l : 0 <= k -> Forall (fun x => 0 <= x) l -> itr_kstrict l k = Ok (olist (knext k l)).
Proof.
  intros Hk Hl. unfold itr_kstrict.
  destruct (clip_cases l) as [[E (c & Hc & ->)]|(pre & x & c & Hx & Hc & -> & E)].
  - rewrite E, knext_zero. reflexivity.
  - apply Forall_app in Hl. destruct Hl as [_ Hl]. inversion Hl as [|? ? Hx0 _]; subst.
    rewrite knext_app by lia. rewrite E. pose proof (zlen_nonneg pre).
    destruct (pre ++ [x]) as [|u v] eqn:Eu; [destruct pre; discriminate|]. rewrite <- Eu.
    rewrite zlen_app, zlen_one. replace (zlen pre + (0 + 1) - 1) with (zlen pre) by lia.
    rewrite (py_get_mid pre x) by auto. rewrite !sl_to_app by auto. cbn [bind].
    rewrite zlen_app, zlen_cons, zlen_repz by auto.
    replace (zlen pre + (c + 1) - (zlen pre + (0 + 1)) + 1) with (c + 1) by lia.
    cbn [olist].
    destruct (x - 1 <=? k) eqn:E1; [|destruct (k <? _) eqn:E2].
    + rewrite kfill_repz by lia. auto.
    + do 2 f_equal. rewrite kfill_formula by lia. rewrite Z2Nat.id by lia. apply map_ext_in.
      intros j Hj. apply in_zrange in Hj. rewrite E1. lia.
    + do 2 f_equal. rewrite kfill_formula by lia. rewrite Z2Nat.id, E1 by lia.
      rewrite (zrange_split 0 (x - 1 - k + 1) (c + 1)) by lia. rewrite map_app. f_equal.
      * apply map_ext_in. intros j Hj. apply in_zrange in Hj. lia.
      * replace (zlen pre + (c + 1) - (zlen pre + (0 + 1)) - (x - 1) + k) with (c + 1 - (x - 1 - k + 1)) by lia.
        rewrite repz_map. replace (zrange (x - 1 - k + 1) (c + 1))
          with (zrange (0 + (x - 1 - k + 1)) (c + 1 - (x - 1 - k + 1) + (x - 1 - k + 1))) by (f_equal; lia).
        rewrite zrange_shift, map_map. apply map_ext_in. intros j Hj. apply in_zrange in Hj. lia.
Qed.

Lemma part_itr_knext K l : 0 <= K -> Forall (fun x => 0 <= x <= K) l -> part_itr l = Ok (knext K l).
Proof.
  intros HK Hl. unfold part_itr, part_len.
  destruct (clip_cases l) as [[E (c & Hc & ->)]|(pre & x & c & Hx & Hc & -> & E)].
  - rewrite E, knext_zero. destruct (repz 0 c); reflexivity.
  - apply Forall_app in Hl. destruct Hl as [_ Hl]. inversion Hl as [|? ? Hx0 _]; subst.
    rewrite knext_app by lia. rewrite E.
    destruct (pre ++ x :: repz 0 c) as [|u v] eqn:Eu; [destruct pre; discriminate|]. rewrite <- Eu.
    destruct (pre ++ [x]) as [|u' v'] eqn:Ev; [destruct pre; discriminate|]. rewrite <- Ev.
    rewrite zlen_app, zlen_one. replace (zlen pre + (0 + 1) - 1) with (zlen pre) by lia.
    rewrite (py_get_mid pre x) by auto. rewrite !sl_to_app by auto. cbn [bind].
    rewrite zlen_app, zlen_cons, zlen_repz by auto.
    replace (zlen pre + (c + 1) - zlen pre) with (c + 1) by lia.
    rewrite kfill_repz by lia. auto.
Qed.

(** ** The chain of all k-strict lists *)

Definition kbox (k rows cols : Z) (l : list Z) : Prop := kdec k cols l /\ zlen l = rows.

Lemma kbox_chain k rows cols : 0 <= k -> 0 <= rows -> 0 <= cols ->
  exists l, chain (fun a => Ok (knext k a)) (kfill k cols (Z.to_nat rows)) l /\
    (forall b, In b l <-> kbox k rows cols b) /\ NoDup l /\
    Z.of_nat (length l) <= (cols + 1) ^ rows.
Proof.
  intros Hk Hr Hc.
  assert (Hlen : forall a, kbox k rows cols a -> length a = Z.to_nat rows).
  { intros a [_ H]. unfold zlen in H. lia. }
  assert (Hmax : kbox k rows cols (kfill k cols (Z.to_nat rows))).
  { split; [apply kfill_kdec; lia|]. unfold zlen. rewrite kfill_len. lia. }
  destruct (chain_ok_max cols Hc (kbox k rows cols) (Z.to_nat rows) (fun a => Ok (knext k a)))
    with (a := kfill k cols (Z.to_nat rows)) as (l & H1 & H2 & H3 & H4); auto.
  - intros a [H _]. apply (kdec_rng k cols cols); auto; lia.
  - intros a Ha. pose proof (Hlen a Ha) as La. destruct Ha as [Ha _].
    destruct (knext_spec k Hk cols Hc a cols (Z.le_refl _) Ha) as [[E Hm]|(b & E & Hb & Lb & Rb & Hm)].
    + left. split; [f_equal; auto|]. intros c Hcc. apply Hm; [apply Hcc|]. rewrite La. auto.
    + right. exists b. split; [f_equal; auto|]. split; [split; auto; unfold zlen in *; lia|]. split; auto.
      intros c Hcc. apply Hm; [apply Hcc|]. rewrite La. auto.
  - intros c Hcc. rewrite <- (Hlen c Hcc). apply kfill_max; auto; try lia. apply Hcc.
  - exists l. rewrite Z2Nat.id in H4 by lia. auto.
Qed.

Lemma kdec_iff k prev l : 0 <= k -> 0 <= prev -> kdec k prev l <-> decp prev l /\ kstrict k l.
Proof.
  intros Hk. revert prev. induction l as [|x t IH]; intros prev Hp.
  - split; [|simpl; auto]. intros _. split; [simpl; auto|].
    intros j Hj. unfold part in Hj. destruct j; simpl in Hj; lia.
  - cbn [kdec decp]. pose proof (dn_le k x). unfold dn in *. split.
    + intros [H1 H2]. rewrite IH in H2 by (destruct (k <? x) eqn:E; lia). destruct H2 as [H2 H3].
      split; [split; auto; eapply decp_mono; [|eauto]; destruct (k <? x) eqn:E; lia|].
      intros [|j] Hj; [|apply H3; auto]. unfold part in *. cbn [nth] in *.
      destruct t as [|y t]; simpl in *; [lia|]. destruct (k <? x) eqn:E; lia.
    + intros [[H1 H2] H3]. split; auto. rewrite IH by (destruct (k <? x) eqn:E; lia). split.
      * specialize (H3 0%nat). unfold part in H3. cbn [nth] in H3. destruct t as [|y t]; [simpl; auto|].
        simpl in *. split; [|tauto]. destruct (k <? x) eqn:E; lia.
      * intros j Hj. apply (H3 (S j)). auto.
Qed.

Lemma kbox_clip k rows cols l : 0 <= k -> 0 <= cols -> kbox k rows cols l -> kstrict_in k rows cols (part_clip l).
Proof.
  intros Hk Hc [H1 H2]. apply kdec_iff in H1; auto. destruct H1 as [H1 H3]. split.
  - apply wbox_in_box; auto. split; auto.
  - intros j. rewrite !part_clip_part. apply H3.
Qed.
Lemma kstrict_in_kbox k rows cols l : 0 <= k -> kstrict_in k rows cols l ->
  kbox k rows cols (padm rows l) /\ part_clip (padm rows l) = l.
Proof.
  intros Hk [H1 H2]. split; [|eapply clip_padm; eauto].
  pose proof (in_box_k _ _ _ H1). destruct (in_box_wbox _ _ _ H1) as [H3 H4].
  split; auto. apply kdec_iff; auto. split; auto. intros j. rewrite !part_padm. apply H2.
Qed.

Lemma kclip_in k rows cols l : 0 <= k -> 0 <= cols -> (forall b, In b l <-> kbox k rows cols b) ->
  forall b, In b (map part_clip l) <-> kstrict_in k rows cols b.
Proof.
  intros Hk Hc Hin b. rewrite in_map_iff. split.
  - intros (a & <- & Ha). apply kbox_clip; auto. apply Hin; auto.
  - intros Hb. apply kstrict_in_kbox in Hb; auto. exists (padm rows b). rewrite Hin. tauto.
Qed.
Lemma kclip_nodup rows l : (forall b, In b l -> zlen b = rows) -> NoDup l -> NoDup (map part_clip l).
Proof.
  intros Hin Hn. induction Hn as [|x t Hx Ht IH]; simpl; constructor.
  - rewrite in_map_iff. intros (y & E & Hy). apply Hx.
    replace x with y; auto. apply part_clip_inj; auto. rewrite !Hin; simpl; auto.
  - apply IH. intros; apply Hin; simpl; auto.
Qed.

Lemma knext_len k l b : knext k l = Some b -> length b = length l.
Proof.
  revert b. induction l as [|x t IH]; intros b; [discriminate|]. cbn [knext].
  destruct (knext k t) as [t'|] eqn:E.
  - intros H. injection H as <-. simpl. rewrite (IH t'); auto.
  - destruct (0 <? x); [|discriminate]. intros H. injection H as <-. simpl. rewrite kfill_len. auto.
Qed.
Lemma knext_nonneg k l b : 0 <= k -> Forall (fun x => 0 <= x) l -> knext k l = Some b -> Forall (fun x => 0 <= x) b.
Proof.
  intros Hk. revert b. induction l as [|x t IH]; intros b Hl; [discriminate|]. cbn [knext]. inversion Hl; subst.
  destruct (knext k t) as [t'|] eqn:E.
  - intros H. injection H as <-. constructor; auto.
  - destruct (0 <? x) eqn:E0; [|discriminate]. intros H. assert (b = kfill k (x - 1) (S (length t))) as -> by congruence.
    apply decp_nonneg with (x - 1). apply (kdec_decp k). apply kfill_kdec; auto. lia.
Qed.

Lemma kstrict_runs k a l : 0 <= k -> chain (fun a => Ok (knext k a)) a l ->
  Forall (fun x => 0 <= x) a -> forall acc, NoDup (map part_clip l ++ acc) ->
  runs (all_kstrict_body k) (a, acc) (length l - 1) (rev acc ++ map part_clip l).
Proof.
  intros Hk Hc. induction Hc as [a E|a b l E Hc IH]; intros Ha acc Hn.
  - simpl. apply runs_done. unfold all_kstrict_body. rewrite itr_knext by auto.
    injection E as E. rewrite E. simpl in *. inversion Hn as [|? ? Hx _]; subst.
    destruct (existsb _ acc) eqn:Ex; [apply existsb_zlist in Ex; tauto|]. auto.
  - injection E as E. cbn [map app] in Hn.
    assert (length (a :: l) - 1 = S (length l - 1))%nat as ->.
    { inversion Hc; subst; simpl; lia. }
    apply runs_next with (b, part_clip a :: acc).
    + unfold all_kstrict_body. rewrite itr_knext by auto. rewrite E. cbn [olist bind].
      inversion Hn as [|? ? Hx _]; subst.
      destruct (existsb _ acc) eqn:Ex; [apply existsb_zlist in Ex; rewrite in_app_iff in Hx; tauto|].
      destruct b; auto. pose proof (knext_len k a [] E) as E'. destruct a; discriminate.
    + replace (rev acc ++ map part_clip (a :: l)) with (rev (part_clip a :: acc) ++ map part_clip l).
      * apply IH; [eapply knext_nonneg; eauto|].
        apply (Permutation_NoDup (Permutation_middle _ _ _) Hn).
      * simpl. rewrite <- app_assoc. auto.
Qed.

Lemma first_kfill k rows cols : 0 <= k <= cols -> 0 <= rows ->
  first_kstrict k rows cols = kfill k cols (Z.to_nat rows).
Proof.
  intros Hk Hr. rewrite kfill_formula by lia. rewrite Z2Nat.id by lia. unfold first_kstrict.
  apply map_ext_in. intros j Hj. apply in_zrange in Hj. destruct (cols <=? k) eqn:E; lia.
Qed.

Lemma pow2_bound B m : 0 <= B -> 0 <= m -> (B + 1) ^ m <= 2 ^ (B * m).
Proof.
  intros HB Hm. rewrite <- (Z2Nat.id m) by auto.
  pose proof (pow_le_2 B HB (Z.to_nat m) 0) as H. rewrite Z.add_0_r in H. auto.
Qed.

Lemma nat_pow_lt n e : Z.of_nat n < 2 ^ Z.of_nat e -> (n < 2 ^ e)%nat.
Proof.
  intros H. apply Nat2Z.inj_lt. rewrite Nat2Z.inj_pow. exact H.
Qed.

Theorem all_kstrict_ok k rows cols : 0 <= k <= cols -> 0 <= rows ->
  exists L, all_kstrict k rows cols = Ok L /\ NoDup L /\ forall b, In b L <-> kstrict_in k rows cols b.
Proof.
  intros Hk Hr. destruct (kbox_chain k rows cols) as (l & H1 & H2 & H3 & H4); try lia.
  assert (Hn : NoDup (map part_clip l)).
  { apply (kclip_nodup rows); auto. intros b Hb. apply H2 in Hb. apply Hb. }
  exists (map part_clip l). split; [|split; auto; apply kclip_in; auto; lia].
  unfold all_kstrict. apply loop2_runs with (length l - 1)%nat.
  - rewrite first_kfill by lia. apply (kstrict_runs k _ l) with (acc := []); auto; try lia.
    + apply decp_nonneg with cols. apply (kdec_decp k). apply kfill_kdec; lia.
    + rewrite app_nil_r. auto.
  - apply nat_pow_lt. pose proof (pow2_bound cols rows ltac:(lia) Hr).
    rewrite Z2Nat.id by nia. eapply Z.le_lt_trans; [|apply Z.pow_lt_mono_r with (b := cols * rows); nia]. lia.
Qed.

Lemma part_gen_runs K a l : 0 <= K -> chain (fun a => Ok (knext K a)) a l ->
  a <> [] -> (forall b, In b l -> Forall (fun x => 0 <= x <= K) b) -> forall acc,
  runs part_gen_body (Some a, acc) (length l) (rev acc ++ map part_clip l).
Proof.
  intros Hk Hc. induction Hc as [a E|a b l E Hc IH]; intros Ha Hl acc; injection E as E.
  - apply runs_next with (None, part_clip a :: acc).
    + unfold part_gen_body. destruct a; [congruence|]. rewrite (part_itr_knext K) by (auto; apply Hl; simpl; auto).
      rewrite E. auto.
    + apply runs_done. simpl. auto.
  - cbn [length]. apply runs_next with (Some b, part_clip a :: acc).
    + unfold part_gen_body. destruct a; [congruence|]. rewrite (part_itr_knext K) by (auto; apply Hl; simpl; auto).
      rewrite E. auto.
    + replace (rev acc ++ map part_clip (a :: l)) with (rev (part_clip a :: acc) ++ map part_clip l).
      * apply IH; [|intros; apply Hl; simpl; auto].
        pose proof (knext_len K a b E) as E'. destruct a; [congruence|]. destruct b; discriminate.
      * simpl. rewrite <- app_assoc. auto.
Qed.

Lemma fold_max_repz k n : 0 <= k -> (0 < n)%nat -> fold_right Z.max 0 (repeat k n) = k.
Proof.
  intros Hk Hn. assert (H : forall n, fold_right Z.max 0 (repeat k n) <= k) by (induction n0; simpl; lia).
  destruct n; [lia|]. simpl. specialize (H n). lia.
Qed.

Lemma kstrict_box m k l : in_box m k l <-> kstrict_in k m k l.
Proof.
  split; [|intros [H _]; auto]. intros H. split; auto. intros j Hj.
  pose proof H as (H1 & _ & H2).
  assert (part l j <= part l 0); [|lia].
  clear Hj. induction j; [lia|]. destruct H1 as [_ H1]. specialize (H1 j). lia.
Qed.

Theorem part_gen_ok m k : 1 <= m -> 0 <= k ->
  exists L, part_gen (repz k m) = Ok L /\ NoDup L /\ forall b, In b L <-> in_box m k b.
Proof.
  intros Hm Hk. destruct (kbox_chain k m k) as (l & H1 & H2 & H3 & H4); try lia.
  rewrite kfill_repz in H1 by lia.
  exists (map part_clip l). split; [|split].
  - assert (E : repz k m <> []) by (intros E; apply (f_equal zlen) in E; rewrite zlen_repz in E by lia; cbn in E; lia).
    unfold part_gen. destruct (repz k m) as [|x t] eqn:Er; [congruence|]. rewrite <- Er in *.
    apply loop2_runs with (length l).
    + apply (part_gen_runs k _ l) with (acc := []); auto.
      intros b Hb. apply H2 in Hb. apply (kdec_rng k k k); [lia|apply Hb].
    + apply nat_pow_lt. pose proof (pow2_bound k m ltac:(lia) ltac:(lia)). unfold gen_depth.
      rewrite zlen_repz by lia. unfold repz. rewrite fold_max_repz by lia.
      rewrite Z2Nat.id by nia. eapply Z.le_lt_trans; [|apply Z.pow_lt_mono_r with (b := k * m); nia]. lia.
  - apply (kclip_nodup m); auto. intros b Hb. apply H2 in Hb. apply Hb.
  - intros b. rewrite kstrict_box. apply kclip_in; auto; lia.
Qed.

(** ** Sorted lists without repetition *)

Lemma zl_lt_lex a b : zl_cmp a b = Lt -> lex_lt a b.
Proof.
  revert b. induction a as [|x a IH]; intros [|y b] H; try discriminate.
  - exists []. left. exists y, b. auto.
  - cbn in H. destruct (x ?= y) eqn:E; try discriminate.
    + apply Z.compare_eq_iff in E. subst y. destruct (IH b H) as (pre & [(y & t & E1 & E2)|(u & y & t & w & E1 & E2 & L)]).
      * exists (x :: pre). left. exists y, t. subst. auto.
      * exists (x :: pre). right. exists u, y, t, w. subst. auto.
    + exists []. right. exists x, y, a, b. auto.
Qed.

Lemma sorted_strict l : StronglySorted (cle zl_cmp) l -> NoDup l -> strictly_increasing l.
Proof.
  induction 1 as [|x t Hs IH Hx]; intros Hn i j Hij; simpl in Hij; [lia|].
  inversion Hn as [|? ? Hnx Hnt]; subst. destruct j as [|j]; [lia|]. destruct i as [|i].
  - cbn [nth]. rewrite Forall_forall in Hx.
    assert (Hin : In (nth j t []) t) by (apply nth_In; lia).
    specialize (Hx _ Hin). unfold cle in Hx. apply zl_lt_lex.
    destruct (zl_cmp x (nth j t [])) eqn:E; [|auto|congruence].
    apply (cmp_eq _ zl_cmp_ok) in E. rewrite <- E in Hin. tauto.
  - cbn [nth]. apply IH; auto. lia.
Qed.

Lemma unique_list_ok l : strictly_increasing (unique_list l) /\ NoDup (unique_list l) /\
  forall x, In x (unique_list l) <-> In x l.
Proof.
  unfold unique_list. pose proof (isort_perm zl_cmp (dedup l [])) as P.
  assert (Hn : NoDup (isort zl_cmp (dedup l []))).
  { apply (Permutation_NoDup (Permutation_sym P)). apply dedup_nodup. }
  split; [|split; auto].
  - apply sorted_strict; auto. apply isort_sorted, zl_cmp_ok.
  - intros x. split; intros H.
    + apply (Permutation_in _ P) in H. apply dedup_in in H. tauto.
    + apply (Permutation_in _ (Permutation_sym P)). apply dedup_in. simpl. tauto.
Qed.

(** ** Counting the partitions in a rectangle *)

Fixpoint boxes (m : nat) : nat -> list (list Z) :=
  match m with
  | O => fun _ => [[]]
  | S m' => fix go (k : nat) :=
      match k with
      | O => [repeat 0 (S m')]
      | S k' => map (cons (Z.of_nat k)) (boxes m' k) ++ go k'
      end
  end.

Lemma binom_0 n m : (n < m)%nat -> binom n m = 0.
Proof. revert m. induction n; intros [|m] H; simpl; auto; try lia. rewrite !IHn; lia. Qed.
Lemma binom_n n : binom n n = 1.
Proof. induction n; simpl; auto. rewrite IHn, binom_0; lia. Qed.

Lemma boxes_count m : forall k, Z.of_nat (length (boxes m k)) = binom (k + m) m.
Proof.
  induction m as [|m IHm]; intros k; [destruct k; reflexivity|].
  induction k as [|k IHk]; [cbn [plus]; rewrite binom_n; reflexivity|].
  cbn [boxes]. rewrite app_length, map_length, Nat2Z.inj_add.
  change ((fix go (k : nat) := match k with O => [repeat 0 (S m)] | S k' => map (cons (Z.of_nat k)) (boxes m k) ++ go k' end) k)
    with (boxes (S m) k).
  rewrite IHk, IHm. replace (S k + S m)%nat with (S (S k + m)) by lia. cbn [binom].
  do 2 f_equal; lia.
Qed.

Lemma boxes_in m : forall k l, In l (boxes m k) <-> decp (Z.of_nat k) l /\ length l = m.
Proof.
  induction m as [|m IHm]; intros k l.
  - simpl. split; [intros [<-|[]]; simpl; auto|]. intros [_ H]. destruct l; [auto|discriminate].
  - induction k as [|k IHk].
    + cbn [boxes]. split.
      * intros [<-|[]]. split; [|rewrite repeat_length; auto]. clear.
        generalize (S m). induction n; simpl; auto. split; [lia|auto].
      * intros [H1 H2]. left. revert H1 H2. generalize (S m). clear. induction l as [|x t IH]; intros n H1 H2.
        -- subst n. reflexivity.
        -- destruct n; [discriminate|]. destruct H1 as [H1 H3]. assert (x = 0) by (simpl in H1; lia). subst x.
           simpl. f_equal. apply IH; auto.
    + cbn [boxes]. 
      change ((fix go (k : nat) := match k with O => [repeat 0 (S m)] | S k' => map (cons (Z.of_nat k)) (boxes m k) ++ go k' end) k)
        with (boxes (S m) k).
      rewrite in_app_iff, in_map_iff, IHk. split.
      * intros [(t & <- & Ht)|[H1 H2]].
        -- apply IHm in Ht. cbn [decp length]. split; [|lia]. split; [lia|tauto].
        -- split; auto. eapply decp_mono; [|eauto]. lia.
      * intros [H1 H2]. destruct l as [|x t]; [discriminate|]. destruct H1 as [H1 H3].
        destruct (Z.eq_dec x (Z.of_nat (S k))) as [->|Hne].
        -- left. exists t. split; auto. apply IHm. split; auto.
        -- right. split; auto. split; auto. lia.
Qed.

Lemma boxes_nodup m : forall k, NoDup (boxes m k).
Proof.
  induction m as [|m IHm]; intros k; [destruct k; simpl; repeat constructor; auto|].
  induction k as [|k IHk]; [simpl; repeat constructor; auto|].
  cbn [boxes]. 
  change ((fix go (k : nat) := match k with O => [repeat 0 (S m)] | S k' => map (cons (Z.of_nat k)) (boxes m k) ++ go k' end) k)
        with (boxes (S m) k).
  apply nodup_app; auto.
  - apply FinFun.Injective_map_NoDup; auto. intros a b H. congruence.
  - intros l H1 H2. apply in_map_iff in H1. destruct H1 as (t & <- & _).
    apply boxes_in in H2. destruct H2 as [[H2 _] _]. lia.
Qed.

Lemma box_count m k L : 0 <= m -> 0 <= k -> NoDup L -> (forall b, In b L <-> in_box m k b) ->
  Z.of_nat (length L) = binom (Z.to_nat (m + k)) (Z.to_nat m).
Proof.
  intros Hm Hk Hn Hin. replace (Z.to_nat (m + k)) with (Z.to_nat k + Z.to_nat m)%nat by lia.
  rewrite <- boxes_count. f_equal. rewrite <- (map_length part_clip (boxes _ _)).
  assert (Hbx : forall b, In b (boxes (Z.to_nat m) (Z.to_nat k)) <-> wbox m k b).
  { intros b. rewrite boxes_in, Z2Nat.id by lia. unfold wbox, zlen. intuition lia. }
  apply Permutation_length, NoDup_Permutation; auto.
  - apply (kclip_nodup m); [|apply boxes_nodup]. intros b Hb. apply Hbx in Hb. apply Hb.
  - intros b. rewrite Hin, in_map_iff. split.
    + intros Hb. exists (padm m b). split; [eapply clip_padm; eauto|]. apply Hbx, in_box_wbox; auto.
    + intros (a & <- & Ha). apply wbox_in_box; auto. apply Hbx; auto.
Qed.

(** ** schub_classes *)

Lemma schub_A m k : 1 <= m -> 0 <= k -> exists L, schub_classes (mkGr TA k (m + k)) = Ok L /\
  strictly_increasing L /\ (forall b, In b L <-> in_box m k b) /\
  Z.of_nat (length L) = binom (Z.to_nat (m + k)) (Z.to_nat m).
Proof.
  intros Hm Hk. unfold schub_classes. cbn [g_type g_k g_n]. replace (m + k - k) with m by lia.
  destruct (part_gen_ok m k Hm Hk) as (L & E & Hn & Hin). rewrite E. cbn [bind].
  destruct (unique_list_ok (isort zl_cmp L)) as (H1 & H2 & H3).
  eexists. split; [reflexivity|]. split; auto.
  assert (H4 : forall b, In b (unique_list (isort zl_cmp L)) <-> in_box m k b).
  { intros b. rewrite H3, <- Hin. split; apply Permutation_in; [|apply Permutation_sym]; apply isort_perm. }
  split; auto. apply box_count; auto; lia.
Qed.

Lemma schub_BC t k n : t = TC \/ t = TB -> 0 <= k <= n -> exists L, schub_classes (mkGr t k n) = Ok L /\
  strictly_increasing L /\ (forall b, In b L <-> kstrict_in k (n - k) (n + k) b).
Proof.
  intros Ht Hk. unfold schub_classes.
  destruct (all_kstrict_ok k (n - k) (n + k)) as (L & E & Hn & Hin); try lia.
  destruct (unique_list_ok L) as (H1 & H2 & H3).
  exists (unique_list L). destruct Ht as [-> | ->]; cbn [g_type g_k g_n]; rewrite E; split; auto; split; auto;
  intros b; rewrite H3; apply Hin.
Qed.

Lemma schub_D k n : 0 <= n -> 0 <= k <= n + 1 -> exists L, schub_classes (mkGr TD k n) = Ok L /\
  strictly_increasing L /\ (forall b, In b L <-> typed_in k (n + 1 - k) (n + k) b).
Proof.
  intros Hn0 Hk. unfold schub_classes. cbn [g_type g_k g_n].
  destruct (all_kstrict_ok k (n + 1 - k) (n + k)) as (L & E & Hn & Hin); try lia. rewrite E. cbn [bind].
  eexists. split; [reflexivity|]. 
  destruct (unique_list_ok (flat_map (fun mu => if zmem k mu then [mu; mu ++ [0]] else [mu]) L)) as (H1 & H2 & H3).
  split; auto. intros b. rewrite H3, in_flat_map. split.
  - intros (mu & Hmu & Hb). apply Hin in Hmu. destruct (zmem k mu) eqn:Em; simpl in Hb.
    + destruct Hb as [<-|[<-|[]]]; [left; auto|]. right. exists mu. apply zmem_in in Em.
      split; auto. split; auto. destruct Hmu as [(Hp & _) _]. destruct Hp as [Hp _].
      destruct (In_nth _ _ 0 Em) as (j & Hj & Ej). specialize (Hp j Hj). unfold part in Hp. lia.
    + destruct Hb as [<-|[]]. left; auto.
  - intros [Hb|(mu & -> & H0 & Hm & Hb)].
    + exists b. split; [apply Hin; auto|]. destruct (zmem k b); simpl; auto.
    + exists mu. split; [apply Hin; auto|]. apply zmem_in in Hm. rewrite Hm. simpl; auto.
Qed.
