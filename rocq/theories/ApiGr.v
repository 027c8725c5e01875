(** Constructors, clone, list arguments, special classes, points and tables. *)

From Coq Require Import ZArith List Lia Bool Permutation QArith Qcanon Setoid Morphisms.
From Verif Require Import Py OrderFacts ModelPart ModelQcalc ModelPoly ModelStr ModelGr ModelList Spec SpecMisc
  PolyFacts SuppFacts PyFacts PartFacts Conv Schub Sys2 SysApi RingA PieriA GrInv FactsA ApiA ApiConvA ApiPair ApiIndex.
Import ListNotations.
Open Scope Z_scope.

(** ** constructors *)
Lemma c32_A m n : (exists g, Grassmannian m n = Ok g) <-> 0 <= m <= n.
Proof.
  unfold Grassmannian. destruct (Z.ltb_spec m 0), (Z.ltb_spec n 0), (Z.ltb_spec n m); simpl;
    split; intros HH; try lia; try (destruct HH; discriminate); eauto.
Qed.
Lemma c32_IG m N : (exists g, IsotropicGrassmannian m N = Ok g) <-> 0 <= m /\ Z.even N = true /\ 2 * m <= N.
Proof.
  unfold IsotropicGrassmannian. pose proof (Z.div_mod N 2). pose proof (Z.mod_pos_bound N 2).
  assert (E : Z.even N = true <-> N mod 2 = 0) by (rewrite Zeven_mod, <- Zeq_is_eq_bool; reflexivity).
  rewrite E. destruct (Z.ltb_spec m 0), (Z.ltb_spec N 0), (Z.eqb_spec (N mod 2) 1), (Z.ltb_spec (N / 2) m); cbn [orb];
    split; intros HH; try lia; try (destruct HH; discriminate); eauto. all: try (eexists; reflexivity).
Qed.
Lemma c32_OG m N : (exists g, OrthogonalGrassmannian m N = Ok g) <-> 0 <= m /\ 0 <= N.
Proof.
  unfold OrthogonalGrassmannian. destruct (Z.ltb_spec m 0), (Z.ltb_spec N 0), (N mod 2 =? 1); simpl;
    split; intros HH; try lia; try (destruct HH; discriminate); eauto.
Qed.
Lemma c32_OG_refuted : exists m N g, OrthogonalGrassmannian m N = Ok g /\ ~ m <= N / 2.
Proof. exists 3, 5, (mkGr TB (-1) 2). split; [reflexivity|]. intros H. vm_compute in H. congruence. Qed.

Ltac tup := repeat match goal with |- (_, _) = (_, _) => apply f_equal2 end; try reflexivity; lia.
Lemma data_A m n g : Grassmannian m n = Ok g ->
  exists k nn, get_type_data g = (TA, k, nn, m, n, n) /\ k = n - m.
Proof.
  intros H. apply gr_inv in H. destruct H as (Hm & Hk & ->). do 2 eexists. split; [|reflexivity].
  unfold get_type_data, degree_q, gA. cbn [g_type g_k g_n]. tup.
Qed.
Lemma data_IG m N g : IsotropicGrassmannian m N = Ok g ->
  exists k nn, get_type_data g = (TC, k, nn, m, N, N + 1 - m) /\ k = N / 2 - m.
Proof.
  intros H. apply ig_inv in H. destruct H as (n & EN & En & Hm & ->). do 2 eexists. split; [|rewrite En; reflexivity].
  unfold get_type_data, degree_q. cbn [g_type g_k g_n]. tup.
Qed.
Lemma data_OG m N g : OrthogonalGrassmannian m N = Ok g ->
  exists t k nn d, get_type_data g = (t, k, nn, m, N, d) /\ k = N / 2 - m /\ t = (if Z.even N then TD else TB).
Proof.
  unfold OrthogonalGrassmannian. destruct ((m <? 0) || (N <? 0)); [discriminate|].
  pose proof (Z.div_mod N 2). pose proof (Z.mod_pos_bound N 2). rewrite Zeven_mod.
  destruct (Z.eqb_spec (N mod 2) 1) as [E|E]; intros EE; inversion EE; subst; clear EE.
  - assert (Hn : (N - 1) / 2 = N / 2) by (replace (N - 1) with ((N / 2) * 2) by lia; apply Z.div_mul; lia).
    rewrite E. cbn [get_type_data g_type g_k g_n]. rewrite Hn. do 4 eexists. split; [|split; reflexivity].
    tup.
  - replace (N mod 2) with 0 by lia. cbn [get_type_data g_type g_k g_n]. do 4 eexists. split; [|split; reflexivity].
    tup.
Qed.

(** ** clone *)
Lemma clone_A m n g : Grassmannian m n = Ok g -> clone g = Ok g.
Proof.
  intros H. pose proof H as H0. apply gr_inv in H0. destruct H0 as (Hm & Hk & ->).
  unfold clone, gA. cbn [g_type g_k g_n]. replace (m + (n - m) - (n - m)) with m by lia.
  replace (m + (n - m)) with n by lia. rewrite H. unfold gA. repeat f_equal; lia.
Qed.
Lemma clone_IG m N g : IsotropicGrassmannian m N = Ok g -> 1 <= N -> clone g <> Ok g.
Proof.
  intros H HN. apply ig_inv in H. destruct H as (n & EN & En & Hm & ->). unfold clone. cbn [g_type g_k g_n].
  intros E. apply ig_inv in E. destruct E as (n' & E1 & E2 & E3 & E4). inversion E4. lia.
Qed.
Lemma clone_OG m N g : OrthogonalGrassmannian m N = Ok g -> clone g <> Ok g.
Proof.
  unfold OrthogonalGrassmannian. destruct ((m <? 0) || (N <? 0)) eqn:E0; [discriminate|]. apply orb_false_iff in E0. destruct E0 as [E0 E0'].
  apply Z.ltb_ge in E0. apply Z.ltb_ge in E0'.
  pose proof (Z.div_mod N 2). pose proof (Z.mod_pos_bound N 2).
  assert (HX : forall a n k t, OrthogonalGrassmannian a n = Ok (mkGr t k n) -> n = 0 - 1).
  { intros a n k t. unfold OrthogonalGrassmannian. destruct ((a <? 0) || (n <? 0)) eqn:E1; [discriminate|].
    apply orb_false_iff in E1. destruct E1 as [E1 E1']. apply Z.ltb_ge in E1, E1'.
    pose proof (Z.div_mod n 2). pose proof (Z.mod_pos_bound n 2). pose proof (Z.div_mod (n-1) 2). pose proof (Z.mod_pos_bound (n-1) 2).
    destruct (n mod 2 =? 1); intros E; inversion E; lia. }
  assert (HY : forall a n, n = 0 - 1 -> OrthogonalGrassmannian a n = Err ValueError).
  { intros a n ->. unfold OrthogonalGrassmannian. rewrite orb_true_r. reflexivity. }
  destruct (N mod 2 =? 1); intros E; inversion E; subst; unfold clone; cbn [g_type g_k g_n]; intros E2;
    pose proof (HX _ _ _ _ E2) as E3; rewrite (HY _ _ E3) in E2; discriminate.
Qed.

(** ** list arguments *)
Lemma pS_ok l : nonneg l -> symbol (SP l) = Ok (pS l).
Proof. intros H. unfold symbol, schur_nonneg. rewrite nonneg_forallb by auto. reflexivity. Qed.
Lemma lc_list_ok l : is_partition l -> lc_of_list l = Ok (pS l).
Proof.
  intros H. unfold lc_of_list. replace (is_valid_part l) with true; [apply pS_ok, partition_nonneg; auto|].
  symmetry. unfold is_valid_part. rewrite nonneg_forallb by (apply partition_nonneg; auto). cbn [negb].
  replace (is_non_increasing l) with true; auto. symmetry. destruct H as [_ H].
  induction l as [|x [|y l] IH]; auto. cbn [is_non_increasing].
  assert (y <= x) by (specialize (H 0%nat); unfold part in H; simpl in H; auto). destruct (Z.ltb_spec x y); [lia|].
  apply IH. intros j. apply (H (S j)).
Qed.
Lemma lists_products g a b : is_partition a -> is_partition b ->
  mult_list g a b = mult g (pS a) (pS b) /\ qmult_list g a b = qmult g (pS a) (pS b) /\
  toS_list g a = toS g (pS a) /\ qtoS_list g a = qtoS g (pS a) /\
  (forall i, qpieri_list g i a = qpieri g i (pS a)) /\ miami_swap_list g a = miami_swap g (pS a).
Proof.
  intros Ha Hb. unfold mult_list, qmult_list, toS_list, qtoS_list, qpieri_list, miami_swap_list. rewrite !lc_list_ok by auto.
  cbn [bind]. repeat split; reflexivity.
Qed.
(** on a class, apply gives what the function gives *)
Lemma apply_on_class f s : apply_lc f (pvar (VS s)) =
  (x <- f s ;; Ok (padd (pscale 1%Qc (pmul x pone)) pzero)).
Proof.
  unfold apply_lc. replace (pnorm (pvar (VS s))) with (pvar (VS s)).
  - cbn [pvar tapply mapply image]. destruct (f s); reflexivity.
  - vm_compute. destruct s; reflexivity.
Qed.
Lemma unwrap x : peq (padd (pscale 1%Qc (pmul x pone)) pzero) x.
Proof. rewrite pscale_1, padd_comm, padd_0_l, pmul_comm. apply pmul_1_l. Qed.
Lemma pieri_list_ok g i l r : pieri_list g i l = Ok r ->
  exists r', pieri g i (pS l) = Ok r' /\ peq r' r.
Proof.
  intros H. unfold pieri, pS, vS. rewrite apply_on_class. cbn [on_part]. unfold pieri_list in H. rewrite H. cbn [bind].
  eexists. split; [reflexivity|]. apply unwrap.
Qed.
Lemma pieri_list_iff g i l e : pieri_list g i l = Err e <-> pieri g i (pS l) = Err e.
Proof.
  unfold pieri, pS, vS. rewrite apply_on_class. cbn [on_part]. unfold pieri_list. destruct (pieri_fun g i l); cbn [bind]; split; congruence.
Qed.
Lemma part2index_list_err g l : exists e, part2index_list g l = Err e.
Proof. unfold part2index_list, qcalc_part2index. destruct (symbol (SP l)); cbn [bind]; eauto. Qed.
Lemma type_swap_list_err g l : exists e, type_swap_list g l = Err e.
Proof. unfold type_swap_list. destruct (symbol (SP l)); cbn [bind]; eauto. Qed.
Lemma pairs_list_err g l t b : g_type g = TB \/ g_type g = TD ->
  (exists e, part2pair_list g l = Err e) /\ (exists e, pair2part_list g t b = Err e).
Proof.
  unfold part2pair_list, pair2part_list.
  intros [-> | ->]; destruct (symbol (SP l)), (symbol (SPair t b)); cbn [bind]; eauto.
Qed.
Lemma index2part_list_ok g l : nonneg l -> index2part_list g l = index2part g (pS l).
Proof. intros H. unfold index2part_list. rewrite pS_ok by auto. reflexivity. Qed.
Lemma pS_inj a b : peq (pS a) (pS b) -> a = b.
Proof.
  intros H. specialize (H [vS b]). rewrite coef_pS_same in H.
  destruct (list_eq_dec Z.eq_dec a b) as [E|E]; auto. rewrite coef_pS_diff in H by auto. discriminate.
Qed.
Lemma part2pair_list_IG m N g lam : IsotropicGrassmannian m N = Ok g -> class_IG m N lam ->
  exists s x, part2pair_list g lam = Ok s /\ part2pair g (pS lam) = Ok x /\ peq x (pvar (VS s)) /\
    (forall t b, s = SPair t b -> pair2part_list g t b = Ok (SP lam)).
Proof.
  intros Hg Hl. pose proof Hg as Hg0. apply ig_inv in Hg0. destruct Hg0 as (n & EN & En & Hm & ->).
  assert (Hk : kstrict_in (n - m) m (N - m) lam) by (unfold class_IG in Hl; rewrite En in Hl; auto).
  destruct (p2p_unmarked (n - m) m (N - m) lam ltac:(lia) Hk) as (t & b & E & Hp & Hi).
  exists (SPair t b). unfold part2pair_list, part2pair. cbn [g_type g_k]. rewrite E.
  unfold pS, vS. rewrite apply_on_class. cbn [on_part]. rewrite E.
  destruct (pair_nonneg _ _ _ _ _ Hi) as [Ht Hb]. rewrite ret_pair by auto. cbn [bind].
  eexists. split; [reflexivity|]. split; [reflexivity|]. split; [apply unwrap|].
  intros t' b' E'. inversion E'; subst t' b'. unfold pair2part_list. cbn [g_type].
  destruct (c18_IG m N (mkGr TC (n - m) n) Hg) as [H1 _].
  destruct (H1 (pS lam)) as (x & y & E1 & _ & E2 & E3).
  { apply expr_in_pS; auto. }
  unfold part2pair in E1. cbn [g_type g_k] in E1. unfold pS, vS in E1. rewrite apply_on_class in E1. cbn [on_part] in E1. rewrite E in E1.
  rewrite ret_pair in E1 by auto. cbn [bind] in E1. inversion E1; subst x.
  unfold pair2part in E2. cbn [g_type] in E2.
  rewrite (apply_lc_peq _ _ (pvar (VS (SPair t b)))) in E2 by (exact (unwrap (pvar (VS (SPair t b))))).
  rewrite apply_on_class in E2. destruct (pair2part_inner t b) as [a|]; cbn [bind] in *; [|discriminate].
  unfold ret_schur, symbol in E2. destruct (schur_nonneg (SP a)); cbn [bind] in E2; [|discriminate]. inversion E2; subst y.
  do 2 f_equal. apply pS_inj. intros mo. rewrite <- (E3 mo). symmetry. apply (unwrap (pS a) mo).
Qed.

(** ** special classes *)
Lemma spec_num p : p <> 0 -> (p < 0 -> False) -> forall t, spec2num t (vS (num2spec p)) = Ok p.
Proof. intros H1 H2 t. unfold num2spec. destruct (Z.ltb_spec 0 p); [reflexivity|lia]. Qed.
Lemma spec_num_D p : p <> 0 -> spec2num TD (vS (num2spec p)) = Ok p.
Proof. intros H. unfold num2spec. destruct (Z.ltb_spec 0 p); cbn; [reflexivity|]. f_equal. lia. Qed.
Lemma spec_part t l p : t <> TD -> is_partition l ->
  (spec2num t (vS l) = Ok p <-> 0 < p /\ l = [p]).
Proof.
  intros Ht [H _]. unfold spec2num, vS. destruct l as [|a [|b l]].
  - split; [discriminate|]. intros [_ E]; discriminate.
  - specialize (H 0%nat). unfold part in H. simpl in H. split; [intros E; inversion E; subst; split; auto; apply H; lia|].
    intros [_ E]. congruence.
  - replace (is_D t) with false by (destruct t; auto; congruence). cbn [negb orb]. split; [discriminate|]. intros [_ E]; discriminate.
Qed.
Lemma spec_typed k rows cols l p : typed_in k rows cols l ->
  (spec2num TD (vS l) = Ok p <-> p <> 0 /\ l = num2spec p).
Proof.
  intros Hl. unfold num2spec.
  assert (HP : forall l p, is_partition l -> (spec2num TD (vS l) = Ok p <-> 0 < p /\ l = [p])).
  { clear. intros l p [H _]. unfold spec2num, vS. destruct l as [|a [|b l]].
    - split; [discriminate|]. intros [_ E]; discriminate.
    - specialize (H 0%nat). unfold part in H. simpl in H. split; [intros E; inversion E; subst; split; auto; apply H; lia|].
      intros [_ E]. congruence.
    - cbn [is_D negb orb]. specialize (H 1%nat). unfold part in H. simpl in H. destruct (Z.eqb_spec b 0); [lia|].
      cbn [negb]. split; [discriminate|]. intros [_ E]; discriminate. }
  destruct Hl as [Hl|(mu & -> & Hk & Hin & Hmu)].
  - assert (P : is_partition l) by apply Hl. rewrite HP by auto. split.
    + intros [H1 ->]. split; [lia|]. destruct (Z.ltb_spec 0 p); [auto|lia].
    + intros [H1 E]. destruct (Z.ltb_spec 0 p); [auto|]. exfalso. subst l. destruct P as [P _]. specialize (P 1%nat). unfold part in P. simpl in P. lia.
  - assert (P : is_partition mu) by apply Hmu. destruct mu as [|a [|b mu]]; [contradiction| |].
    + cbn [app spec2num vS is_D negb orb Z.eqb]. destruct P as [P _]. specialize (P 0%nat). unfold part in P. simpl in P. split.
      * intros E. inversion E; subst. split; [lia|]. destruct (Z.ltb_spec 0 (- a)); [lia|]. f_equal. lia.
      * intros [H1 E]. destruct (Z.ltb_spec 0 p); inversion E. f_equal. lia.
    + cbn [app spec2num vS is_D negb orb]. destruct P as [P _]. specialize (P 1%nat). unfold part in P. simpl in P.
      destruct (Z.eqb_spec b 0); [lia|]. cbn [negb]. split; [discriminate|]. intros [_ E]. destruct (Z.ltb_spec 0 p); [discriminate|].
      inversion E. destruct mu; discriminate.
Qed.

(** ** generators *)
Lemma in_zrange' a b x : In x (zrange a b) <-> a <= x < b.
Proof. apply in_zrange. Qed.
Lemma row_part i : 0 < i -> is_partition [i].
Proof. intros H. split; [intros [|j] Hj; simpl in Hj; [exact H|lia]|]. intros [|[|j]]; unfold part; simpl; lia. Qed.
Lemma row_box i rows cols : 1 <= rows -> 1 <= i <= cols -> in_box rows cols [i].
Proof. intros. split; [apply row_part; lia|]. unfold part; simpl; lia. Qed.
Lemma row_kstrict k i : 0 <= k -> 0 < i -> kstrict k [i].
Proof. intros Hk Hi [|[|j]]; unfold part; simpl; lia. Qed.
Lemma gens_A m n g l : Grassmannian m n = Ok g -> 1 <= m ->
  (In l (generators g) <-> in_box m (n - m) l /\ exists i, 1 <= i /\ l = [i]).
Proof.
  intros Hg Hm. apply gr_inv in Hg. destruct Hg as (_ & Hk & ->). unfold generators, gA. cbn [g_type g_k g_n].
  destruct (Z.eqb_spec (n - m) (m + (n - m))); [lia|]. rewrite in_map_iff. split.
  - intros (i & <- & Hi). apply in_zrange in Hi. split; [apply row_box; lia|]. exists i. split; auto; lia.
  - intros [(_ & _ & H) (i & Hi & ->)]. exists i. split; auto. apply in_zrange. unfold part in H. simpl in H. lia.
Qed.
Lemma gens_BC t k n l : t = TB \/ t = TC -> 0 <= k < n ->
  (In l (generators (mkGr t k n)) <-> kstrict_in k (n - k) (n + k) l /\ exists i, 1 <= i /\ l = [i]).
Proof.
  intros Ht Hk. assert (E : generators (mkGr t k n) = map (fun i => [i]) (zrange 1 (k + 1)) ++ map (fun i => [i]) (zrange (k + 1) (n + k + 1))).
  { unfold generators. cbn [g_type g_k g_n]. destruct (Z.eqb_spec k n); [lia|]. destruct Ht as [->| ->]; reflexivity. }
  rewrite E, in_app_iff, !in_map_iff. split.
  - intros [(i & <- & Hi)|(i & <- & Hi)]; apply in_zrange in Hi;
      (split; [split; [apply row_box; lia|apply row_kstrict; lia]|exists i; split; auto; lia]).
  - intros [[(_ & _ & H) _] (i & Hi & ->)]. unfold part in H. simpl in H. destruct (Z_lt_dec i (k + 1)).
    + left. exists i. split; auto. apply in_zrange. lia.
    + right. exists i. split; auto. apply in_zrange. lia.
Qed.
Lemma gens_D k n l : 0 <= k <= n ->
  (In l (generators (mkGr TD k n)) <-> typed_in k (n + 1 - k) (n + k) l /\ exists i, 1 <= i /\ (l = [i] \/ l = [i; 0])).
Proof.
  intros Hk. unfold generators. cbn [g_type g_k g_n]. rewrite !in_app_iff, !in_map_iff. split.
  - intros [(i & <- & Hi)|[H|(i & <- & Hi)]].
    + apply in_zrange in Hi. split; [left; split; [apply row_box; lia|apply row_kstrict; lia]|exists i; split; auto; lia].
    + destruct (Z.ltb_spec 0 k); [|contradiction]. destruct H as [<-|[]]. split.
      * right. exists [k]. split; auto. split; auto. split; [left; auto|]. split; [apply row_box; lia|apply row_kstrict; lia].
      * exists k. split; auto; lia.
    + apply in_zrange in Hi. split; [left; split; [apply row_box; lia|apply row_kstrict; lia]|exists i; split; auto; lia].
  - intros [H (i & Hi & E)]. destruct H as [[(P & _ & H) _]|(mu & -> & Hk0 & Hin & Hmu)].
    + destruct E as [->| ->]; [|exfalso; destruct P as [P _]; specialize (P 1%nat); unfold part in P; simpl in P; lia].
      unfold part in H. simpl in H. destruct (Z_lt_dec i (k + 1)).
      * left. exists i. split; auto. apply in_zrange. lia.
      * right. right. exists i. split; auto. apply in_zrange. lia.
    + right. left. destruct (Z.ltb_spec 0 k); [|lia]. left. destruct mu as [|a [|b mu]]; [contradiction| |].
      * destruct Hin as [->|[]]. reflexivity.
      * exfalso. destruct E as [E|E]; inversion E. destruct mu; discriminate.
Qed.
Lemma gens_IG m N g l : IsotropicGrassmannian m N = Ok g -> 1 <= m ->
  (In l (generators g) <-> class_IG m N l /\ exists i, 1 <= i /\ l = [i]).
Proof.
  intros Hg Hm1. apply ig_inv in Hg. destruct Hg as (n & EN & En & Hm & ->). rewrite gens_BC by (auto; lia).
  unfold class_IG. rewrite En. replace (n - (n - m)) with m by lia. replace (n + (n - m)) with (N - m) by lia. reflexivity.
Qed.
Lemma gens_OG m N g l : OrthogonalGrassmannian m N = Ok g -> 1 <= m <= N / 2 ->
  (In l (generators g) <-> class_OG m N l /\ exists i, 1 <= i /\ (l = [i] \/ l = [i; 0])).
Proof.
  intros Hg Hm1. unfold class_OG.
  destruct (og_inv m N g Hg ltac:(lia)) as [(n & EN & En & Ev & Hm' & ->)|(n & EN & En & Ev & Hm' & ->)]; rewrite Ev, En.
  - rewrite gens_BC by (auto; lia). replace (n - (n - m)) with m by lia. replace (n + (n - m)) with (N - 1 - m) by lia.
    split; intros [H (i & Hi & E)]; split; auto; exists i; split; auto.
    destruct E as [E|E]; auto. exfalso. subst l. destruct H as [[[H _] _] _]. specialize (H 1%nat). unfold part in H. simpl in H. lia.
  - rewrite gens_D by lia. replace (n + 1 - (n + 1 - m)) with m by lia. replace (n + (n + 1 - m)) with (N - 1 - m) by lia. reflexivity.
Qed.
Lemma gens_OG_m0 : exists N g l, OrthogonalGrassmannian 0 N = Ok g /\ 1 <= N /\ In l (generators g) /\ ~ class_OG 0 N l.
Proof.
  exists 4, (mkGr TD 2 1), [1]. split; [reflexivity|]. split; [lia|]. split; [vm_compute; auto|].
  intros [[(_ & H & _) _]|(mu & E & _)]; [simpl in H; lia|]. destruct mu as [|? [|? ?]]; inversion E.
Qed.

(** ** the class of a point *)
Lemma dualize_peq g a b : peq a b -> dualize g a = dualize g b.
Proof. intros H. unfold dualize, part2index. rewrite (apply_lc_peq _ _ _ H). reflexivity. Qed.
Lemma point_generic g (V : list Z -> Prop) dim :
  (forall lam, V lam -> exists mu r, dualize g (pS lam) = Ok r /\ peq r (pS mu) /\ V mu /\ size mu = dim - size lam) ->
  (forall p, expr_in (on_list V) p -> exists x y, dualize g p = Ok x /\ expr_in (on_list V) x /\ dualize g x = Ok y /\ peq y p) ->
  (exists r, dualize g (pS []) = Ok r /\ peq r (pS (point_class g))) ->
  V [] -> (forall l, V l -> 0 <= size l /\ (size l = 0 -> l = [])) ->
  is_point V (point_class g).
Proof.
  intros HC HI (r & E & P) H0 Hs.
  destruct (HC [] H0) as (mu & r' & E' & P' & HV & S'). rewrite E in E'. inversion E'; subst r'.
  assert (point_class g = mu) by (apply pS_inj; rewrite <- P; auto). subst mu. split; auto.
  change (size []) with 0 in S'. intros l Hl. destruct (HC l Hl) as (mu & s & Es & Ps & HVm & Sm).
  pose proof (Hs mu HVm) as [Hp Hz]. split; [lia|]. intros Eq. assert (mu = []) by (apply Hz; lia). subst mu.
  destruct (HI (pS l) (expr_in_pS (on_list V) (SP l) Hl)) as (x & y & Ex & _ & Ey & Py).
  rewrite Es in Ex. inversion Ex; subst x. rewrite (dualize_peq g s (pS []) Ps), E in Ey. inversion Ey; subst y.
  apply pS_inj. rewrite <- Py. auto.
Qed.
Lemma partition_size l : is_partition l -> 0 <= size l /\ (size l = 0 -> l = []).
Proof.
  intros Hp. pose proof (partition_nonneg l Hp) as Hn. destruct Hp as [H _].
  assert (0 <= size l). { unfold nonneg in Hn. induction Hn; simpl; [lia|]. unfold size in *. simpl in *. assert (0 <= fold_right Z.add 0 l); [|lia]. clear -Hn. induction Hn; simpl; lia. }
  split; auto. intros E. destruct l as [|x l]; auto. exfalso. specialize (H 0%nat). unfold part in H. simpl in H.
  inversion Hn; subst. assert (0 <= fold_right Z.add 0 l) by (clear -H4; induction H4; simpl; lia). unfold size in E. simpl in E. lia.
Qed.
Lemma nil_part : is_partition [].
Proof. split; [intros j Hj; simpl in Hj; lia|]. intros [|j]; unfold part; simpl; lia. Qed.
Lemma nil_kstrict k rows cols : 0 <= k -> 0 <= rows -> 0 <= cols -> kstrict_in k rows cols [].
Proof. intros. split; [split; [apply nil_part|unfold part; simpl; lia]|]. intros [|j]; unfold part; simpl; lia. Qed.
Lemma typed_size k rows cols l : typed_in k rows cols l -> 0 <= size l /\ (size l = 0 -> l = []).
Proof.
  intros [[[H _] _]|(mu & -> & Hk & Hin & [[H _] _])]; [apply partition_size; auto|].
  destruct (partition_size mu H) as [H1 H2]. replace (size (mu ++ [0])) with (size mu).
  - split; auto. intros E. specialize (H2 E). subst. contradiction.
  - unfold size. clear. induction mu; simpl; lia.
Qed.
Lemma point_A m n g : Grassmannian m n = Ok g -> is_point (in_box m (n - m)) (point_class g).
Proof.
  intros Hg. apply (point_generic _ _ (m * (n - m))).
  - intros lam Hl. destruct (c17_class m n g lam Hg Hl) as (mu & r & E & P & B & _ & S). eauto 6.
  - intros p Hp. apply (c17_inv m n g p Hg Hp).
  - apply (c17_point m n g Hg).
  - apply gr_inv in Hg. destruct Hg as (? & ? & _). split; [apply nil_part|]. unfold part; simpl; lia.
  - intros l [H _]. apply partition_size; auto.
Qed.
Lemma point_IG m N g : IsotropicGrassmannian m N = Ok g -> is_point (class_IG m N) (point_class g).
Proof.
  intros Hg. apply (point_generic _ _ (dim_IG m N)).
  - intros lam Hl. apply (c17_IG_class m N g lam Hg Hl).
  - intros p Hp. apply (c17_IG_inv m N g p Hg Hp).
  - apply (c17_IG_point m N g Hg).
  - apply ig_inv in Hg. destruct Hg as (n & EN & En & Hm & _). unfold class_IG. rewrite En. apply nil_kstrict; lia.
  - intros l [[H _] _]. apply partition_size; auto.
Qed.
Lemma point_OG m N g : OrthogonalGrassmannian m N = Ok g -> m <= N / 2 -> 1 <= N ->
  is_point (class_OG m N) (point_class g).
Proof.
  intros Hg Hm HN. destruct (OG_dual m N g Hg Hm HN) as [H1 H2]. apply (point_generic _ _ (dim_OG m N)); auto.
  - apply (c17_OG_inv m N g Hg Hm HN).
  - unfold class_OG. destruct (og_inv m N g Hg Hm) as [(n & EN & En & Ev & Hm' & ->)|(n & EN & En & Ev & Hm' & ->)]; rewrite Ev, En.
    + apply nil_kstrict; lia.
    + left. apply nil_kstrict; lia.
  - intros l. unfold class_OG. destruct (Z.even N); [apply typed_size|]. intros [[H _] _]. apply partition_size; auto.
Qed.

(** ** tables *)
Lemma mapM_nth {A B} (f : A -> res B) l ys : mapM f l = Ok ys ->
  length ys = length l /\ forall i a y, nth_error l i = Some a -> nth_error ys i = Some y -> f a = Ok y.
Proof.
  revert ys. induction l as [|x l IH]; cbn [mapM]; intros ys E.
  - inversion E. split; auto. intros [|i]; discriminate.
  - destruct (f x) as [y|] eqn:Ex; cbn [bind] in E; [|discriminate]. destruct (mapM f l) as [ys'|]; cbn [bind] in E; [|discriminate].
    inversion E; subst. destruct (IH ys' eq_refl) as [L H]. split; [simpl; auto|].
    intros [|i] a z Ea Ez; cbn [nth_error] in *; [congruence|eauto].
Qed.
Lemma mapM_total {A B} (f : A -> res B) l : (forall a, In a l -> exists y, f a = Ok y) -> exists ys, mapM f l = Ok ys.
Proof.
  induction l as [|x l IH]; cbn [mapM]; intros H; [eauto|]. destruct (H x) as [y ->]; [left; auto|].
  destruct IH as [ys ->]; [intros; apply H; right; auto|]. cbn [bind]. eauto.
Qed.
Lemma table_entries prod g T : mult_table_with prod g = Ok T ->
  exists L, schub_classes g = Ok L /\ is_table prod L T.
Proof.
  unfold mult_table_with. destruct (schub_classes g) as [L|]; cbn [bind]; [|discriminate]. intros E. exists L. split; auto.
  apply mapM_nth in E. destruct E as [E1 E2]. split; auto. intros i a row Ha Hr. specialize (E2 i a row Ha Hr).
  apply mapM_nth in E2. destruct E2 as [E2 E3]. split; auto. 
Qed.
Lemma table_total prod g L : schub_classes g = Ok L ->
  (forall a b, In a L -> In b L -> exists x, prod (pS a) (pS b) = Ok x) -> exists T, mult_table_with prod g = Ok T.
Proof.
  intros E H. unfold mult_table_with. rewrite E. cbn [bind]. apply mapM_total. intros a Ha. apply mapM_total. intros b Hb. apply H; auto.
Qed.
Lemma tables_A m n g : Grassmannian m n = Ok g -> 1 <= m ->
  exists L T T', schub_classes g = Ok L /\ MultTable g = Ok T /\ QMultTable g = Ok T' /\
    is_table (mult g) L T /\ is_table (qmult g) L T' /\ symmetric_table T /\ symmetric_table T'.
Proof.
  intros Hg Hm. destruct (c12 m n g Hg Hm) as (L & EL & _ & HL & _). exists L.
  assert (Hc : forall a b, In a L -> In b L ->
    (exists r r', mult g (pS a) (pS b) = Ok r /\ mult g (pS b) (pS a) = Ok r' /\ peq r r') /\
    (exists r r', qmult g (pS a) (pS b) = Ok r /\ qmult g (pS b) (pS a) = Ok r' /\ peq r r')).
  { intros a b Ha Hb. apply (c05 m n g); auto; apply lin_comb_pS; apply HL; auto. }
  destruct (table_total (mult g) g L EL) as [T ET]. { intros a b Ha Hb. destruct (Hc a b Ha Hb) as [(r & _ & E & _) _]. eauto. }
  destruct (table_total (qmult g) g L EL) as [T' ET']. { intros a b Ha Hb. destruct (Hc a b Ha Hb) as [_ (r & _ & E & _)]. eauto. }
  destruct (table_entries _ _ _ ET) as (L1 & E1 & H1). rewrite EL in E1. inversion E1; subst L1.
  destruct (table_entries _ _ _ ET') as (L2 & E2 & H2). rewrite EL in E2. inversion E2; subst L2.
  exists T, T'. do 5 (split; [assumption|]).
  assert (G : forall prod U, is_table prod L U -> (forall a b, In a L -> In b L -> exists r r', prod (pS a) (pS b) = Ok r /\ prod (pS b) (pS a) = Ok r' /\ peq r r') -> symmetric_table U).
  { clear. intros prod U [HU1 HU2] Hc i j r r' x y E1 E2 E3 E4.
    assert (Hi : (i < length L)%nat) by (rewrite <- HU1; apply nth_error_Some; congruence).
    assert (Hj : (j < length L)%nat) by (rewrite <- HU1; apply nth_error_Some; congruence).
    destruct (nth_error L i) as [a|] eqn:Ea; [|apply nth_error_None in Ea; lia].
    destruct (nth_error L j) as [b|] eqn:Eb; [|apply nth_error_None in Eb; lia].
    destruct (HU2 i a r Ea E1) as [_ Hx]. destruct (HU2 j b r' Eb E3) as [_ Hy].
    specialize (Hx j b x Eb E2). specialize (Hy i a y Ea E4).
    destruct (Hc a b) as (s & s' & Es & Es' & P); [eapply nth_error_In; eauto..|]. congruence. }
  split; eapply G; eauto; intros a b Ha Hb; apply (Hc a b Ha Hb).
Qed.

Lemma index2part_list_in g l : (forall x, In x l -> 0 <= x) -> index2part_list g l = index2part g (pS l).
Proof. intros H. apply index2part_list_ok. unfold nonneg. apply Forall_forall. auto. Qed.
Lemma spec_round t p : 0 < p \/ (p < 0 /\ t = TD) -> spec2num t (vS (num2spec p)) = Ok p.
Proof. intros [H|[H ->]]; [apply spec_num; lia|apply spec_num_D; lia]. Qed.
Lemma spec_typed_cases k rows cols l p : typed_in k rows cols l ->
  (spec2num TD (vS l) = Ok p <-> 0 < p /\ l = [p] \/ p < 0 /\ l = [- p; 0]).
Proof.
  intros H. rewrite (spec_typed k rows cols l p H). unfold num2spec. destruct (Z.ltb_spec 0 p); intuition lia.
Qed.
