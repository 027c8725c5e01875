(** The quantum Pieri rule of type D for k <> 1. *)

From Coq Require Import ZArith List Lia Bool Permutation QArith Qcanon Setoid Morphisms.
From Verif Require Import Py OrderFacts PyFacts ModelPart ModelQcalc ModelPoly ModelGr Spec SpecPieri
  PolyFacts SuppFacts Conv Enum FillFacts PartFacts ConjFacts PairFacts ApiPair PieriA QPieriA PieriSet PieriBKT CompsFacts
  CompsBound WSum PieriCoef PieriD.
Import ListNotations.
Open Scope Z_scope.

Lemma coef_D_supp k n p lam mu c : coef_D k n p lam mu c -> c <> 0%Qc -> pieri_term_D k n p lam mu.
Proof. intros [(H & _)|(_ & H)] Hc; auto. congruence. Qed.
Lemma typed_mono k rows cols rows' cols' l : rows <= rows' -> cols <= cols' -> typed_in k rows cols l -> typed_in k rows' cols' l.
Proof.
  assert (G : forall mu, rows <= rows' -> cols <= cols' -> kstrict_in k rows cols mu -> kstrict_in k rows' cols' mu).
  { intros mu H1 H2 ((A & B & C) & D). split; auto. split; auto. lia. }
  intros H1 H2 [H|(mu & E & H3 & H4 & H5)]; [left; auto|right; exists mu; auto].
Qed.
Lemma typed_part k rows cols l j : typed_in k rows cols l -> part (shape l) j = part l j.
Proof.
  intros H. destruct (typed_shape _ _ _ _ H) as (_ & [E|(E & _)]); rewrite E at 2; auto. unfold part. rewrite nth_app0. auto.
Qed.

Lemma typed_tl k rows cols lam : cols <> k -> part lam 0 = cols -> 0 < cols -> typed_in k rows cols lam -> typed_in k rows cols (tl lam).
Proof.
  intros Hc H0 Hpos [H|(mu & -> & Hk & Hin & H)]; [left; apply kstrict_tl; auto|].
  destruct mu as [|x t]; [contradiction|]. right. exists t. cbn [app tl]. split; auto. split; auto. split.
  - destruct Hin as [E|E]; auto. unfold part in H0. simpl in H0. lia.
  - apply (kstrict_tl k rows cols (x :: t)). auto.
Qed.
Lemma head_is_pos lam v : 0 < v -> head_is lam v = (part lam 0 =? v).
Proof. intros Hv. destruct lam as [|x t]; [|reflexivity]. symmetry. apply Z.eqb_neq. unfold part. simpl. lia. Qed.

Lemma qstarD k n lam p : 0 <= k -> k <= n + 1 -> 0 < n -> 0 <= n -> typed_in k (n + 1 - k) (n + k) lam -> part lam 0 = n + k ->
  exists y z W, pieriD_inner p (sl_from lam 1) k n = Ok y /\ star_lc (n + k) y = Ok z /\ lincl z W /\
    forall mu, coef_D k n p (tl lam) (n + k :: mu) (W mu).
Proof.
  intros Hk Hkn Hnp Hn HL Hh. destruct lam as [|x t]; [unfold part in Hh; simpl in Hh; lia|]. rewrite sl_from_1.
  destruct (pieriD_lincl k n p t Hk Hn Hkn) as (y & Wy & Ey & Hy & HWy).
  { apply (typed_tl k _ _ (x :: t)); auto; lia. }
  destruct (star_lincl (n + k) y Wy Hy) as (z & Ez & Hz).
  { intros l Hl. apply (coef_D_supp _ _ _ _ _ _ (HWy l)) in Hl. destruct Hl as (Hl & _). eapply typed_nonneg; eauto. }
  exists y, z, (fun l => Wy (n + k :: l)). split; auto.
Qed.

Lemma qpieriD0_coefs g n lam p : 1 <= n -> typed_in 0 (n + 1) n lam ->
  exists r W, qpieriD_inner g p lam 0 n = Ok r /\ qcoefs r W /\ quantum_Dmax n p lam W.
Proof.
  intros Hn HL. assert (HL' : typed_in 0 (n + 1 - 0) (n + 0) lam) by (rewrite Z.sub_0_r, Z.add_0_r; auto).
  destruct (pieriD_lincl 0 n p lam) as (r & Wr & Er & Hr & HWr); auto; try lia.
  unfold qpieriD_inner. rewrite Er. cbn [bind]. change (0 =? 0) with true. cbv iota.
  rewrite head_is_pos by lia.
  destruct (Z.eqb_spec (part lam 0) (n + 0)) as [Eh|Eh].
  - destruct (qstarD 0 n lam p) as (y & z & Wz & Ey & Ez & Hz & HWz); auto; try lia.
    rewrite Ey. cbn [bind]. rewrite Ez. cbn [bind]. eexists. eexists. split; [reflexivity|].
    split; [exact (qcoefs_padd _ _ _ _ (lincl_qcoefs _ _ Hr) (qcoefs_mul 1 1 z _ (lincl_qcoefs _ _ Hz)))|].
    split; [|split].
    + intros mu. cbv beta. simpl. rewrite Qcplus_0_r. auto.
    + intros mu. cbv beta. replace (part lam 0 =? n) with true by lia. simpl. rewrite Qcplus_0_l, Qcmult_1_l.
      specialize (HWz mu). rewrite Z.add_0_r in HWz. auto.
    + intros [|[|d]] mu Hd; try lia. cbv beta. simpl. ring.
  - eexists. eexists. split; [reflexivity|]. split; [exact (lincl_qcoefs _ _ Hr)|]. split; [|split].
    + intros mu. cbv beta. auto.
    + intros mu. replace (part lam 0 =? n) with false by lia. reflexivity.
    + intros [|[|d]] mu Hd; try lia. reflexivity.
Qed.

(** ** removing the first row and ones, keeping the type *)
Definition tilde0 (rows cols : Z) (l : list Z) : option (list Z) :=
  match part_tilde l rows cols with Ok o => o | _ => None end.

Lemma part_len_app0 l : part_len (l ++ [0]) = part_len l.
Proof. unfold part_len. change [0] with (repz 0 1). rewrite part_clip_app0. reflexivity. Qed.
Lemma tilde_zero l rows cols : is_partition l -> zlen l <= rows -> 1 <= rows -> 
  part_tilde (l ++ [0]) rows cols = match part_tilde l rows cols with Ok o => Ok (option_map (fun x => x ++ [0]) o) | Err e => Err e end.
Proof.
  intros Hl Hlen Hr. unfold part_tilde. rewrite part_len_app0. unfold part_len. rewrite (clip_partition l Hl).
  destruct (Z.eqb_spec (zlen l) rows) as [E|E].
  2:{ reflexivity. }
  destruct l as [|x t]; [change (zlen (@nil Z)) with 0 in E; lia|]. cbn [negb orb app].
  destruct (Z.ltb_spec cols x) as [Hx|Hx]; [reflexivity|].
  rewrite !(py_get_in _ 0 0) by (rewrite !zlen_cons, ?zlen_app in *; pose proof (zlen_nonneg t); unfold zlen in *; simpl; lia).
  cbn [bind]. simpl (nth _ _ _).
  cbv zeta. destruct (Z.leb_spec (rows + x - cols) 0) as [Hr0|Hr0]; [reflexivity|].
  set (r := rows + x - cols) in *.
  assert (Ez : zlen (x :: t ++ [0]) = rows + 1) by (change (x :: t ++ [0]) with ((x :: t) ++ [0]); rewrite zlen_app, E; reflexivity).
  assert (Ec : (if (r <? rows) && (r <? zlen (x :: t ++ [0])) then y <- py_get (x :: t ++ [0]) r ;; Ok (1 <? y) else Ok false) =
     (if (r <? rows) && (r <? zlen (x :: t)) then y <- py_get (x :: t) r ;; Ok (1 <? y) else Ok false)).
  { rewrite E, Ez. destruct (Z.ltb_spec r rows) as [H|H]; cbn [andb]; auto. replace (r <? rows + 1) with true by lia.
    rewrite !(py_get_in _ r 0) by lia. cbn [bind]. change (x :: t ++ [0]) with ((x :: t) ++ [0]). rewrite nth_app0. reflexivity. }
  rewrite Ec. destruct (if (r <? rows) && (r <? zlen (x :: t)) then _ else _) as [c|]; [|reflexivity]. cbn [bind].
  destruct c; [reflexivity|]. change (x :: t ++ [0]) with ((x :: t) ++ [0]). rewrite last_last. simpl (0 =? 0). cbv iota.
  replace (last (x :: t) 1 =? 0) with false by (pose proof (PieriCoef.last_partition _ Hl); lia).
  cbn [option_map]. do 2 f_equal. f_equal.
  unfold sl, sl_to. rewrite !sl_bound_in by (rewrite ?zlen_app; change (zlen [0]) with 1; lia). f_equal.
  rewrite firstn_app. replace (Z.to_nat r - length (x :: t))%nat with O by (unfold zlen in E; lia). simpl firstn. apply app_nil_r.
Qed.

Lemma last_not0 c rows l' : 0 < c -> (last l' 1 =? 0) = false -> last (with_row_and_ones c rows l') 1 <> 0.
Proof.
  intros Hc Hl. unfold with_row_and_ones. destruct (Z.to_nat rows - 1 - length l')%nat as [|j] eqn:E.
  - simpl repeat. rewrite app_nil_r. destruct l' as [|x t] using rev_ind; [simpl; lia|]. rewrite last_last in Hl.
    rewrite app_comm_cons, last_last. lia.
  - cbn [repeat]. rewrite repeat_cons, app_assoc, last_last. lia.
Qed.
Lemma tildeD_iff k rows cols cols' l : typed_in k rows cols' l -> 1 <= rows -> 0 < cols - rows + 1 ->
  exists o, part_tilde l rows cols = Ok o /\
    forall l', o = Some l' <-> l = with_row_and_ones_D (cols - rows + 1) rows l'.
Proof.
  intros Hl Hr Hc. destruct (typed_shape _ _ _ _ Hl) as (((H1 & H2 & _) & _) & HE). fold (zlen (shape l)) in H2.
  destruct (tilde_iff (shape l) rows cols H1 H2 Hr) as (o & E & Ho).
  destruct HE as [El|(El & Hk & Hin)].
  - rewrite El. exists o. split; auto. intros l'. rewrite Ho. unfold with_row_and_ones_D.
    destruct (last l' 1 =? 0) eqn:E0; [|reflexivity]. split; intros E1; exfalso.
    + destruct l' as [|x t] using rev_ind; [discriminate|]. rewrite last_last in E0.
      apply partition_pos in H1. rewrite E1 in H1. unfold with_row_and_ones in H1. apply Forall_app in H1. destruct H1 as [H1 _].
      inversion H1 as [|? ? _ H3]; subst. apply Forall_app in H3. destruct H3 as [_ H3]. inversion H3; subst. lia.
    + apply partition_pos in H1. rewrite E1 in H1. apply Forall_app in H1. destruct H1 as [_ H1]. inversion H1. lia.
  - rewrite El. rewrite tilde_zero, E by auto. eexists. split; [reflexivity|]. intros l'.
    unfold with_row_and_ones_D. destruct (last l' 1 =? 0) eqn:E0.
    + destruct l' as [|x t _] using rev_ind; [discriminate|]. rewrite last_last in E0. assert (x = 0) as -> by lia.
      rewrite removelast_last. split.
      * intros E1. destruct o as [o'|]; [|discriminate]. injection E1 as E1. apply app_inj_tail in E1. destruct E1 as [-> _].
        f_equal. apply Ho. reflexivity.
      * intros E1. apply app_inj_tail in E1. destruct E1 as [E1 _]. apply Ho in E1. rewrite E1. reflexivity.
    + split; intros E1; exfalso.
      * destruct o as [o'|]; [|discriminate]. injection E1 as E1. rewrite <- E1, last_last in E0. discriminate.
      * pose proof (last_not0 _ rows l' Hc E0) as H9. rewrite <- E1, last_last in H9. lia.
Qed.
Lemma tildeD_lincl k rows cols cols' y W : 1 <= rows -> 0 < cols - rows + 1 -> lincl y W ->
  (forall l, W l <> 0%Qc -> typed_in k rows cols' l) ->
  exists z, tilde_lc rows cols y = Ok z /\ lincl z (fun l => W (with_row_and_ones_D (cols - rows + 1) rows l)).
Proof.
  intros Hr Hc Hy Hn.
  apply (apply_map _ (tilde0 rows cols) (with_row_and_ones_D (cols - rows + 1) rows)); auto.
  - intros l Hl. pose proof (Hn l Hl) as H1. destruct (tildeD_iff k rows cols cols' l H1 Hr Hc) as (o & E & Ho).
    unfold tilde0. rewrite E. cbn [bind]. destruct o as [t|]; simpl; [|eexists; split; reflexivity].
    rewrite symbol_ok; [eexists; split; reflexivity|]. specialize (Ho t). destruct Ho as [Ho _]. specialize (Ho eq_refl).
    apply typed_nonneg in H1. unfold nonneg in *. rewrite Ho in H1. unfold with_row_and_ones_D in H1.
    destruct (last t 1 =? 0) eqn:E0.
    + destruct t as [|x t _] using rev_ind; [constructor|]. rewrite removelast_last in H1. rewrite last_last in E0.
      apply Forall_app in H1. destruct H1 as [H1 _]. unfold with_row_and_ones in H1. apply Forall_app in H1. destruct H1 as [H1 _].
      inversion H1; subst. apply Forall_app. split; auto. repeat constructor. lia.
    + unfold with_row_and_ones in H1. apply Forall_app in H1. destruct H1 as [H1 _]. inversion H1; auto.
  - intros l l' Hl. pose proof (Hn l Hl) as H1. destruct (tildeD_iff k rows cols cols' l H1 Hr Hc) as (o & E & Ho).
    unfold tilde0. rewrite E. apply Ho.
Qed.

(** ** exchanging the types *)
Lemma swap_lincl k n rows cols z W : 0 <= k -> lincl z W -> (forall l, W l <> 0%Qc -> typed_in k rows cols l) ->
  exists r W', type_swap (mkGr TD k n) z = Ok r /\ lincl r W' /\
    (forall l, typed_in k rows cols l -> W' l = W (type_swap_inner l k)) /\
    (forall l, W' l <> 0%Qc -> typed_in k rows cols l).
Proof.
  intros Hk Hz HW. set (sw := fun l => type_swap_inner l k).
  assert (Hneg : W [-1] = 0%Qc).
  { destruct (Qc_eq_dec (W [-1]) 0%Qc) as [E|E]; auto. exfalso. apply HW, typed_nonneg in E. inversion E. lia. }
  set (gg := fun l' => if l_dec (sw (sw l')) l' then sw l' else [-1]).
  destruct (apply_map (fun lam => ret_schur (SP (type_swap_inner lam k))) (fun l => Some (sw l)) gg z W Hz) as (r & Er & Hr).
  - intros l Hl. apply HW in Hl. destruct (type_swap_spec k rows cols l Hl) as (_ & _ & C & _). unfold ret_schur.
    rewrite symbol_ok by (eapply typed_nonneg; eauto). eexists. split; reflexivity.
  - intros l l' Hl. apply HW in Hl. pose proof (type_swap_inv k rows cols l Hl) as Hi. fold (sw l) in Hi. fold (sw (sw l)) in Hi.
    unfold gg. split.
    + intros E. injection E as <-. rewrite Hi. destruct (l_dec (sw l) (sw l)); congruence.
    + destruct (l_dec (sw (sw l')) l') as [E|E]; intros E1; subst l; [rewrite E; reflexivity|].
      apply typed_nonneg in Hl. inversion Hl. lia.
  - exists r. eexists. split; [exact Er|]. split; [exact Hr|]. split.
    + intros l Hl. cbv beta. unfold gg. pose proof (type_swap_inv k rows cols l Hl) as Hi. fold (sw l) in Hi. fold (sw (sw l)) in Hi.
      rewrite Hi. destruct (l_dec l l); [reflexivity|congruence].
    + intros l. cbv beta. unfold gg. destruct (l_dec (sw (sw l)) l) as [E|E]; [|congruence]. intros Hl. apply HW in Hl.
      destruct (type_swap_spec k rows cols _ Hl) as (_ & _ & C & _). fold (sw (sw l)) in C. rewrite E in C. exact C.
Qed.
Lemma swap_type_ok k rows cols l : typed_in k rows cols l -> type_swap_inner l k = swap_type k l.
Proof.
  intros H. unfold type_swap_inner, swap_type. destruct l as [|x t] eqn:El.
  - reflexivity.
  - rewrite <- El in *. unfold zmem. destruct (existsb (Z.eqb k) l) eqn:E; cbn [negb].
    + rewrite sl_to_m1_removelast. reflexivity.
    + destruct (last l 1 =? 0) eqn:E0; auto. exfalso. destruct H as [H|(mu & E1 & H1 & H2 & H3)].
      * pose proof (PieriCoef.last_partition l (proj1 (proj1 H))). lia.
      * assert (E2 : existsb (Z.eqb k) l = true); [|congruence]. apply (zmem_iff k l). rewrite E1. apply in_app_iff. auto.
Qed.

Lemma partition_app_l a b : is_partition (a ++ b) -> is_partition a.
Proof.
  intros H. pose proof (fun j => is_partition_nonneg _ j H) as Hnn. destruct H as [H1 H2]. split; intros j; unfold part in *.
  - intros Hj. specialize (H1 j). rewrite app_length in H1. rewrite app_nth1 in H1 by lia. apply H1. lia.
  - destruct (le_lt_dec (length a) (S j)) as [E|E].
    + rewrite (@nth_overflow Z a (S j)) by lia. destruct (le_lt_dec (length a) j) as [E1|E1]; [rewrite nth_overflow by lia; lia|].
      specialize (Hnn j). rewrite app_nth1 in Hnn by lia. lia.
    + specialize (H2 j). rewrite !app_nth1 in H2 by lia. auto.
Qed.
Lemma kstrict_app_l k a b : is_partition (a ++ b) -> kstrict k (a ++ b) -> 0 <= k -> kstrict k a.
Proof.
  intros H H1 Hk j Hj. specialize (H1 j). unfold part in *. destruct (le_lt_dec (length a) j) as [E|E].
  - rewrite nth_overflow in Hj by lia. lia.
  - rewrite (app_nth1 a b 0 E) in H1. specialize (H1 Hj). destruct (le_lt_dec (length a) (S j)) as [E1|E1].
    + rewrite (@nth_overflow Z a (S j)) by lia. lia.
    + rewrite app_nth1 in H1 by lia. auto.
Qed.
Lemma with_row_kstrict k n m : 0 <= k -> k <= n + 1 -> 0 <= n ->
  kstrict_in k (n + 2 - k) (n + 1 + k) (with_row_and_ones (2 * k - 1) (n + 2 - k) m) -> kstrict_in k (n + 1 - k) (n + k) m.
Proof.
  intros Hk Hkn Hn ((H2 & H3 & H4) & H5). unfold with_row_and_ones in *.
  pose proof (partition_app_l _ _ H2) as H1. pose proof (kstrict_app_l _ _ _ H2 H5 Hk) as H6.
  rewrite app_length in H3. cbn [length] in H3. split; [split; [eapply is_partition_tail; eauto|split; [lia|]]|].
  - destruct H1 as (_ & H7). specialize (H7 O). unfold part in *. cbn [nth] in H7. unfold zlen in *. lia.
  - intros j. apply (H6 (S j)).
Qed.
Lemma with_row_typed k n l : 2 <= k -> 0 <= n -> k <= n + 1 ->
  typed_in k (n + 2 - k) (n + 1 + k) (with_row_and_ones_D (2 * k - 1) (n + 2 - k) l) -> typed_in k (n + 1 - k) (n + k) l.
Proof.
  intros Hk Hn Hkn H. unfold with_row_and_ones_D in H. destruct (last l 1 =? 0) eqn:E0.
  - destruct l as [|x t _] using rev_ind; [discriminate|]. rewrite last_last in E0. assert (x = 0) as -> by lia. rewrite removelast_last in H.
    destruct H as [H|(mu & E & _ & H6 & H7)].
    + exfalso. pose proof (PieriCoef.last_partition _ (proj1 (proj1 H))) as H8. rewrite last_last in H8. lia.
    + apply app_inj_tail in E. destruct E as [<- _]. right. exists t. split; auto. split; [lia|]. split.
      * unfold with_row_and_ones in H6. apply in_app_iff in H6. destruct H6 as [[H6|H6]|H6]; [lia|auto|].
        apply repeat_spec in H6. lia.
      * apply with_row_kstrict; auto; lia.
  - destruct H as [H|(mu & E & _ & _ & _)]; [left; apply with_row_kstrict; auto; lia|]. exfalso.
    apply (last_not0 (2 * k - 1) (n + 2 - k) l) in E0; [|lia]. rewrite E, last_last in E0. lia.
Qed.

Lemma qcondD k n lam : 0 <= k -> k < n + 1 -> typed_in k (n + 1 - k) (n + k) lam ->
  (if n + 1 - k <=? zlen lam then x <- py_get lam (n + 1 - k - 1) ;; Ok (0 <? x) else Ok false) =
  Ok (Z.of_nat (length (shape lam)) =? n + 1 - k).
Proof.
  intros Hk Hkn H. pose proof (typed_part k _ _ lam (Z.to_nat (n + 1 - k - 1)) H) as H1.
  destruct (typed_shape _ _ _ _ H) as (((H2 & H3 & _) & _) & HE).
  assert (H4 : zlen lam = zlen (shape lam) \/ zlen lam = zlen (shape lam) + 1).
  { destruct HE as [E|(E & _)]; rewrite E at 1 3; [auto|right; rewrite zlen_app; reflexivity]. }
  unfold zlen in *. destruct (Z.leb_spec (n + 1 - k) (Z.of_nat (length lam))) as [E|E].
  - rewrite (py_get_in _ _ 0) by (unfold zlen; lia). cbn [bind]. unfold part in H1. rewrite <- H1. f_equal.
    destruct (Z.eqb_spec (Z.of_nat (length (shape lam))) (n + 1 - k)) as [E1|E1].
    + apply Z.ltb_lt. apply (proj1 H2). lia.
    + apply Z.ltb_ge. rewrite nth_overflow by lia. lia.
  - f_equal. symmetry. apply Z.eqb_neq. lia.
Qed.
Lemma qpieriD_coefs k n lam p : 2 <= k -> k <= n -> typed_in k (n + 1 - k) (n + k) lam ->
  exists r W, qpieriD_inner (mkGr TD k n) p lam k n = Ok r /\ qcoefs r W /\ quantum_D k n p lam W.
Proof.
  intros Hk Hkn HL.
  destruct (pieriD_lincl k n p lam) as (r & Wr & Er & Hr & HWr); auto; try lia.
  unfold qpieriD_inner. rewrite Er. cbn [bind]. replace (k =? 0) with false by lia. replace (k =? 1) with false by lia.
  rewrite qcondD by (auto; lia). cbn [bind]. rewrite head_is_pos by lia.
  assert (H1 : exists r1 W1, (if Z.of_nat (length (shape lam)) =? n + 1 - k then
            y <- pieriD_inner p lam k (n + 1) ;;
            z <- tilde_lc (n - k + 2) (n + k) y ;;
            z <- type_swap (mkGr TD k n) z ;;
            Ok (padd r (pmul (pvar VQ) z))
          else Ok r) = Ok r1 /\ qcoefs r1 (fun d mu => match d with O => Wr mu | 1%nat => W1 mu | _ => 0%Qc end) /\
     (forall mu, typed_in k (n + 1 - k) (n + k) mu ->
       if Z.of_nat (length (shape lam)) =? n + 1 - k
       then coef_D k (n + 1) p lam (with_row_and_ones_D (2 * k - 1) (n + 2 - k) (swap_type k mu)) (W1 mu)
       else W1 mu = 0%Qc) /\ forall mu, W1 mu <> 0%Qc -> typed_in k (n + 1 - k) (n + k) mu).
  { destruct (Z.eqb_spec (Z.of_nat (length (shape lam))) (n + 1 - k)) as [Ec|Ec].
    2:{ exists r, (fun _ => 0%Qc). split; auto. split; [|split; auto; congruence].
        eapply qcoefs_ext; [|exact (lincl_qcoefs _ _ Hr)]. intros [|[|d]] mu; reflexivity. }
    destruct (pieriD_lincl k (n + 1) p lam) as (y & Wy & Ey & Hy & HWy); try lia.
    { eapply typed_mono; [| |exact HL]; lia. }
    destruct (tildeD_lincl k (n - k + 2) (n + k) (n + 1 + k) y Wy) as (z & Ez & Hz); auto; try lia.
    { intros l Hl. apply (coef_D_supp _ _ _ _ _ _ (HWy l)) in Hl. destruct Hl as (Hl & _). eapply typed_mono; [| |exact Hl]; lia. }
    replace (n + k - (n - k + 2) + 1) with (2 * k - 1) in Hz by lia. replace (n - k + 2) with (n + 2 - k) in * by lia.
    destruct (swap_lincl k n (n + 1 - k) (n + k) z _ ltac:(lia) Hz) as (s & W' & Es & Hs & HW' & Hs').
    { intros l Hl. cbv beta in Hl. apply with_row_typed; try lia.
      apply (coef_D_supp _ _ _ _ _ _ (HWy _)) in Hl. destruct Hl as (Hl & _). eapply typed_mono; [| |exact Hl]; lia. }
    rewrite Ey. cbn [bind]. rewrite Ez. cbn [bind]. rewrite Es. cbn [bind]. eexists. exists W'. split; [reflexivity|].
    split; [|split; auto].
    - eapply qcoefs_ext; [|exact (qcoefs_padd _ _ _ _ (lincl_qcoefs _ _ Hr) (qcoefs_mul 1 1 s _ (lincl_qcoefs _ _ Hs)))].
      intros [|[|d]] mu; cbv beta; simpl; ring.
    - intros mu Hmu. rewrite HW' by auto. rewrite (swap_type_ok _ _ _ _ Hmu). apply HWy. }
  destruct H1 as (r1 & W1 & E1 & Hq & HW1 & HS1). rewrite E1. cbn [bind].
  assert (HS0 : forall mu, Wr mu <> 0%Qc -> typed_in k (n + 1 - k) (n + k) mu).
  { intros mu Hmu. apply (coef_D_supp _ _ _ _ _ _ (HWr mu)) in Hmu. destruct Hmu as (Hl & _). auto. }
  destruct (Z.eqb_spec (part lam 0) (n + k)) as [Eh|Eh].
  - destruct (qstarD k n lam p) as (y & z & Wz & Ey & Ez & Hz & HWz); auto; try lia.
    rewrite Ey. cbn [bind]. rewrite Ez. cbn [bind].
    exists (padd r1 (pmul q2 z)), (fun d mu => match d with O => Wr mu | 1%nat => W1 mu | 2%nat => Wz mu | _ => 0%Qc end).
    split; [reflexivity|]. split.
    { eapply qcoefs_ext; [|exact (qcoefs_padd _ _ _ _ Hq (qcoefs_mul 1 2 z _ (lincl_qcoefs _ _ Hz)))].
      intros [|[|[|d]]] mu; cbv beta; simpl; ring. }
    split; [auto|]. split; [auto|]. rewrite Eh, Z.eqb_refl. split; [auto|].
    intros [|[|[|d]]] mu Hd; split; auto; try lia; try congruence.
    apply (coef_D_supp _ _ _ _ _ _ (HWz mu)) in Hd. destruct Hd as (Hl & _).
    apply (typed_tl k _ _ (n + k :: mu)) in Hl; auto; lia.
  - exists r1. eexists. split; [reflexivity|]. split; [exact Hq|]. split; [auto|]. split; [auto|].
    replace (part lam 0 =? n + k) with false by lia. split; [auto|].
    intros [|[|d]] mu Hd; split; auto; try lia; congruence.
Qed.
