(** The recursion of [giambelli] on symbols that are not classes of the space. *)

From Coq Require Import ZArith List Lia Bool Permutation QArith Qcanon Setoid Morphisms.
From Verif Require Import Py OrderFacts PyFacts ModelPart ModelQcalc ModelPoly ModelStr ModelGr Spec SpecPieri SpecOutside
  PolyFacts SuppFacts OpTheory ExprFacts Enum PartFacts PieriA Sys RingA FactsA GrInv ApiGr ApiA ApiPieriP TabFacts ApiPart CylA QPieriA DualA Check.
Import ListNotations.
Open Scope Z_scope.

(** ** The general argument: a class that the Pieri rule cannot produce is
    expanded again and again *)
Section G.
Variables (pi : Z -> list Z -> res poly) (k : Z) (V : list Z -> Prop).
Hypothesis V_nil : V [].
Hypothesis pi_V : forall lam p lam0 y mu, gsel k lam = Ok (p, lam0) -> schur_nonneg (SP lam) = true -> V lam0 -> pi p lam0 = Ok y ->
  ~ V mu -> coef y [vS mu] = 0%Qc.

Lemma giam_unfold f lam : lam <> [] -> giambelli_rec_inner (S f) pi k lam =
  ('(p, lam0) <- gsel k lam ;; y <- pi p lam0 ;; s <- symbol (SP lam) ;;
   a <- giambelli_rec_inner f pi k lam0 ;; b <- apply_lc (on_part (giambelli_rec_inner f pi k)) (psub y s) ;;
   sp <- symbol (SP (num2spec p)) ;; Ok (psub (pmul sp a) b)).
Proof.
  intros Hl. destruct lam as [|p0 t]; [congruence|]. cbn [giambelli_rec_inner]. unfold gsel. cbn [hd].
  destruct (last (p0 :: t) 1 =? 0); [|reflexivity]. destruct (py_get (p0 :: t) 1); reflexivity.
Qed.

Lemma contains_ok f p r s : apply_lc f p = Ok r -> contains p s -> exists x, f s = Ok x.
Proof.
  intros E (m & Hm & Hs). pose proof (supp_pvars p m Hm) as HV. unfold vars_in in HV. rewrite Forall_forall in HV.
  destruct (apply_lc_defined f p r E (VS s) (HV _ Hs)) as [x Hx]. eauto.
Qed.

Lemma giam_outside : forall fuel lam e, ~ V lam -> giambelli_rec_inner fuel pi k lam <> Ok e.
Proof.
  induction fuel as [|f IH]; intros lam e Hl H; [discriminate|].
  assert (Hn : lam <> []) by (intros ->; auto). rewrite giam_unfold in H by auto.
  destruct (gsel k lam) as [[p lam0]|] eqn:Eg; [|discriminate]. cbn [bind] in H.
  destruct (pi p lam0) as [y|] eqn:Ey; [|discriminate]. cbn [bind] in H. unfold symbol at 1 in H.
  destruct (schur_nonneg (SP lam)) eqn:En; [|discriminate]. cbn [bind] in H.
  destruct (giambelli_rec_inner f pi k lam0) as [a|] eqn:Ea; [|discriminate]. cbn [bind] in H.
  destruct (apply_lc _ _) as [b|] eqn:Eb in H; [|discriminate]. clear H.
  assert (V0 : ~ ~ V lam0) by (intros N; exact (IH lam0 a N Ea)). apply V0. clear V0. intros V0.
  pose proof (pi_V lam p lam0 y lam Eg En V0 Ey Hl) as E0.
  destruct (contains_ok _ _ _ (SP lam) Eb) as (x & Ex); [|exact (IH lam x Hl Ex)].
  exists [vS lam]. split; [|left; reflexivity]. rewrite coef_psub, E0. unfold pvar, coef. cbn [fold_right fst snd].
  rewrite (proj2 (mono_eqb_perm _ _)) by reflexivity. discriminate.
Qed.
Lemma giam_raises fuel p s : not_in V s -> contains p s -> raises (apply_lc (on_part (giambelli_rec_inner fuel pi k)) p).
Proof.
  intros Hs Hc. unfold raises. destruct (apply_lc _ p) as [r|e] eqn:E; [|eauto]. exfalso.
  destruct (contains_ok _ _ _ _ E Hc) as (x & Hx). destruct s as [l|t b]; [|discriminate]. cbn [on_part] in Hx.
  exact (giam_outside fuel l x (Hs l eq_refl) Hx).
Qed.
End G.

(** ** q-terms *)
Definition withq (m : mono) : Prop := In VQ m \/ In VQ1 m \/ In VQ2 m.
Lemma withq_inv : minv withq.
Proof. intros a b HP. unfold withq. intros [H|[H|H]]; [left|right; left|right; right]; eapply Permutation_in; eauto. Qed.
Lemma withq_mul a b : supp withq a -> supp withq (pmul a b).
Proof.
  intros Ha. apply (supp_pmul withq (fun _ => True)); auto using withq_inv; [|intros m _; exact I].
  intros x y H _. unfold withq in *. rewrite !in_app_iff. tauto.
Qed.
Lemma withq_coef a mu : supp withq a -> coef a [vS mu] = 0%Qc.
Proof.
  intros Ha. destruct (Qc_eq_dec (coef a [vS mu]) 0%Qc) as [|H]; [auto|]. apply Ha in H. exfalso.
  unfold withq, vS in H. cbn [In] in H. destruct H as [[H|[]]|[[H|[]]|[H|[]]]]; discriminate.
Qed.
Lemma withq_apply f p r : apply_lc f p = Ok r -> supp withq p -> supp withq r.
Proof.
  intros H Hp. apply apply_lc_val' in H. eapply supp_peq; [symmetry; exact H|]. eapply supp_psubst; [apply withq_inv| |exact Hp].
  intros m Hm. induction m as [|v m IH]; [destruct Hm as [[]|[[]|[]]]|]. cbn [msubst fold_right].
  change (fold_right (fun v0 acc => pmul (val f v0) acc) pone m) with (msubst (val f) m).
  assert (K : withq [v] \/ withq m) by (unfold withq in *; cbn [In] in *; tauto).
  destruct K as [K|K].
  - apply withq_mul. destruct v; cbn [In] in K; unfold withq in K; cbn [In] in K; try (exfalso; intuition congruence);
      (apply supp_pvar; [apply withq_inv|]); unfold withq; cbn; auto.
  - eapply supp_peq; [apply pmul_comm|]. apply withq_mul. auto.
Qed.
Lemma withq_v v : v = VQ \/ v = VQ1 \/ v = VQ2 -> supp withq (pvar v).
Proof. intros H. apply supp_pvar; [apply withq_inv|]. unfold withq. cbn. intuition. Qed.

(** a quantum Pieri rule without its q-terms *)
Lemma qpieri_classical g p lam y : qpieri_fun g p lam = Ok y -> (g_type g = TA -> g_k g <> 1) ->
  exists a, pieri_fun g p lam = Ok a /\ forall mu, coef y [vS mu] = coef a [vS mu].
Proof.
  assert (K : forall a b mu, supp withq b -> coef (padd a b) [vS mu] = coef a [vS mu]).
  { intros a b mu Hb. rewrite coef_padd, (withq_coef b mu Hb). ring. }
  assert (Q : forall z, supp withq (pmul (pvar VQ) z)) by (intros z; apply withq_mul, withq_v; auto).
  assert (Q2 : forall z, supp withq (pmul q2 z)).
  { intros z. apply withq_mul. apply (supp_pmono withq [VQ; VQ]); [apply withq_inv|]. unfold withq. cbn. auto. }
  assert (Q12 : forall z, supp withq (pmul q1q2 z)).
  { intros z. apply withq_mul. apply (supp_pmono withq [VQ1; VQ2]); [apply withq_inv|]. unfold withq. cbn. auto. }
  unfold qpieri_fun, pieri_fun. destruct g as [t k n]. cbn [g_type g_k g_n]. destruct t; intros H Hk.
  - unfold qpieriA_inner in H. destruct (pieriA_inner p lam k n) as [a|]; [|discriminate]. cbn [bind] in H. exists a. split; auto. intros mu.
    destruct (if zlen lam =? n - k then _ else _) as [c|]; [|discriminate]. cbn [bind] in H. destruct c; [|congruence].
    destruct (Z.eqb_spec k 1) as [E|E]; [exfalso; apply Hk; auto|].
    destruct (pieriA_inner _ _ _ _) as [z1|]; [|discriminate]. cbn [bind] in H. destruct (apply_lc _ z1) as [z|]; [|discriminate]. cbn [bind] in H.
    injection H as <-. apply K; auto.
  - unfold qpieriB_inner in H. destruct (pieriB_inner p lam k n) as [a|]; [|discriminate]. cbn [bind] in H. exists a. split; auto. intros mu.
    destruct (k =? 0).
    + destruct (head_is _ _); [|congruence]. destruct (pieriB_inner _ _ _ _) as [z1|]; [|discriminate]. cbn [bind] in H.
      destruct (star_lc _ _) as [z|]; [|discriminate]. cbn [bind] in H. injection H as <-. apply K; auto.
    + destruct (if zlen lam =? n - k then _ else _) as [c|]; [|discriminate]. cbn [bind] in H.
      match type of H with (r <- ?X ;; _) = _ => destruct X as [r|] eqn:Er; [|discriminate] end. cbn [bind] in H.
      assert (E1 : coef r [vS mu] = coef a [vS mu]).
      { destruct c; [|congruence]. destruct (pieriB_inner _ _ _ (n + 1)) as [z1|]; [|discriminate]. cbn [bind] in Er.
        destruct (tilde_lc _ _ _) as [z|]; [|discriminate]. cbn [bind] in Er. injection Er as <-. apply K; auto. }
      rewrite <- E1. destruct (head_is _ _); [|congruence]. destruct (pieriB_inner p (sl_from lam 1) k n) as [z1|]; [|discriminate]. cbn [bind] in H.
      destruct (star_lc _ _) as [z|]; [|discriminate]. cbn [bind] in H. injection H as <-. apply K; auto.
  - unfold qpieriC_inner in H. destruct (pieriC_inner p lam k n) as [a|]; [|discriminate]. cbn [bind] in H. exists a. split; auto. intros mu.
    destruct (pieriC_inner _ _ _ _) as [z1|]; [|discriminate]. cbn [bind] in H. destruct (apply_lc _ z1) as [z|]; [|discriminate]. cbn [bind] in H.
    injection H as <-. apply K. apply withq_mul. change (supp withq (pscale (pow2 (-1)) (pvar VQ))). apply supp_pscale, withq_v. auto.
  - unfold qpieriD_inner in H. destruct (pieriD_inner p lam k n) as [a|]; [|discriminate]. cbn [bind] in H. exists a. split; auto. intros mu.
    destruct (k =? 0); [|destruct (k =? 1)].
    + destruct (head_is _ _); [|congruence]. destruct (pieriD_inner _ _ _ _) as [z1|]; [|discriminate]. cbn [bind] in H.
      destruct (star_lc _ _) as [z|]; [|discriminate]. cbn [bind] in H. injection H as <-. apply K; auto.
    + destruct (if n <=? zlen lam then _ else _) as [c|]; [|discriminate]. cbn [bind] in H.
      match type of H with (r <- ?X ;; _) = _ => destruct X as [r|] eqn:Er; [|discriminate] end. cbn [bind] in H.
      assert (E1 : coef r [vS mu] = coef a [vS mu]).
      { destruct c; [|congruence]. destruct (symbol _) as [c1|] in Er; [|discriminate]. cbn [bind] in Er.
        destruct (if 1 <? Z.abs p then _ else _) as [c2|] in Er; [|discriminate]. cbn [bind] in Er.
        destruct (apply_lc _ c2) as [c3|] in Er; [|discriminate]. cbn [bind] in Er.
        destruct (py_get lam (-1)) as [lx|] in Er; [|discriminate]. cbn [bind] in Er.
        match type of Er with (r <- ?X ;; _) = _ => destruct X as [r1|] eqn:E1; [|discriminate] end. cbn [bind] in Er.
        match type of Er with (r <- ?X ;; _) = _ => destruct X as [r2|] eqn:E2; [|discriminate] end. cbn [bind] in Er.
        destruct (dualize _ r2) as [z|] eqn:Ed in Er; [|discriminate]. cbn [bind] in Er. injection Er as <-. apply K.
        assert (S1 : supp withq r1).
        { destruct ((0 <? lx) && (0 <? p)); [|injection E1 as <-; apply supp_zero]. destruct (apply_lc _ c3) as [z1|] in E1; [|discriminate]. cbn [bind] in E1.
          injection E1 as <-. apply withq_mul, withq_v. auto. }
        assert (S2 : supp withq r2).
        { destruct (((lx =? 0) || _) && _); [|injection E2 as <-; auto]. destruct (apply_lc _ c3) as [z1|] in E2; [|discriminate]. cbn [bind] in E2.
          injection E2 as <-. apply supp_padd; auto. apply withq_mul, withq_v. auto. }
        unfold dualize in Ed. destruct (part2index _ r2) as [d1|] eqn:D1 in Ed; [|discriminate]. cbn [bind] in Ed.
        destruct (apply_lc _ d1) as [d2|] eqn:D2 in Ed; [|discriminate]. cbn [bind] in Ed.
        eapply withq_apply; [exact Ed|]. eapply withq_apply; [exact D2|]. eapply withq_apply; [exact D1|]. auto. }
      rewrite <- E1. destruct (head_is _ _); [|congruence]. destruct (pieriD_inner p (sl_from lam 1) k n) as [z1|]; [|discriminate]. cbn [bind] in H.
      destruct (star_lc _ _) as [z|]; [|discriminate]. cbn [bind] in H. injection H as <-. apply K; auto.
    + destruct (if n + 1 - k <=? zlen lam then _ else _) as [c|]; [|discriminate]. cbn [bind] in H.
      match type of H with (r <- ?X ;; _) = _ => destruct X as [r|] eqn:Er; [|discriminate] end. cbn [bind] in H.
      assert (E1 : coef r [vS mu] = coef a [vS mu]).
      { destruct c; [|congruence]. destruct (pieriD_inner _ _ _ (n + 1)) as [z1|]; [|discriminate]. cbn [bind] in Er.
        destruct (tilde_lc _ _ _) as [z|]; [|discriminate]. cbn [bind] in Er. destruct (type_swap _ z) as [z2|]; [|discriminate]. cbn [bind] in Er.
        injection Er as <-. apply K; auto. }
      rewrite <- E1. destruct (head_is _ _); [|congruence]. destruct (pieriD_inner p (sl_from lam 1) k n) as [z1|]; [|discriminate]. cbn [bind] in H.
      destruct (star_lc _ _) as [z|]; [|discriminate]. cbn [bind] in H. injection H as <-. apply K; auto.
Qed.

Lemma gtype_dec_A (t : gtype) : {t = TA} + {t <> TA}.
Proof. destruct t; [left|right|right|right]; congruence. Qed.
Lemma qpieri_zero g p lam y mu : qpieri_fun g p lam = Ok y ->
  (forall a, pieri_fun g p lam = Ok a -> coef a [vS mu] = 0%Qc) -> coef y [vS mu] = 0%Qc.
Proof.
  intros H Ha. destruct (gtype_dec_A (g_type g)) as [Ht|Ht]; [destruct (Z.eq_dec (g_k g) 1) as [Hk|Hk]|].
  - destruct g as [t k n]. cbn [g_type g_k] in *. subst t k. unfold qpieri_fun, pieri_fun in *. cbn [g_type g_k g_n] in *. unfold qpieriA_inner in H.
    destruct (pieriA_inner p lam 1 n) as [a|]; [|discriminate]. cbn [bind] in H.
    destruct (if zlen lam =? n - 1 then _ else _) as [c|]; [|discriminate]. cbn [bind] in H. destruct c; [|injection H as <-; auto].
    cbn [Z.eqb Pos.eqb] in H. injection H as <-. apply withq_coef. apply (supp_pmono withq [VQ; VS (SP [])]); [apply withq_inv|]. unfold withq. cbn. auto.
  - destruct (qpieri_classical g p lam y H ltac:(auto)) as (a & Ea & E). rewrite E. auto.
  - destruct (qpieri_classical g p lam y H ltac:(intros; contradiction)) as (a & Ea & E). rewrite E. auto.
Qed.

(** ** The spaces *)
Lemma pieri_of_fun g p lam a : pieri_fun g p lam = Ok a -> exists r, pieri g p (pS lam) = Ok r /\ peq r a.
Proof.
  intros E. unfold pieri, pS, vS. rewrite apply_on_class. cbn [on_part]. rewrite E. cbn [bind]. eexists. split; [reflexivity|]. apply unwrap.
Qed.
Lemma ig_zero m N g p lam a mu : IsotropicGrassmannian m N = Ok g -> class_IG m N lam -> pieri_fun g p lam = Ok a -> ~ class_IG m N mu -> coef a [vS mu] = 0%Qc.
Proof.
  intros Hg Hl Ea Hmu. destruct (pieri_of_fun g p lam a Ea) as (r & Er & Pr). destruct (c44_IG' m N g p lam Hg Hl) as (r' & c & E & (H1 & _) & H2).
  rewrite Er in E. injection E as <-. rewrite <- (Pr _), H1. destruct (H2 mu) as [((Hc & _) & _)|(_ & Z0)]; [|auto]. exfalso. apply Hmu.
  destruct (ig_inv m N g Hg) as (n & -> & En & Hm & _). unfold class_IG. rewrite En in *. replace (n - (n - m)) with m in Hc by lia. replace (n + (n - m)) with (2 * n - m) in Hc by lia. auto.
Qed.
Lemma og_zero m N g p lam a mu : OrthogonalGrassmannian m N = Ok g -> m <= N / 2 -> 1 <= N -> class_OG m N lam -> pieri_fun g p lam = Ok a -> ~ class_OG m N mu -> coef a [vS mu] = 0%Qc.
Proof.
  intros Hg Hm HN Hl Ea Hmu. destruct (pieri_of_fun g p lam a Ea) as (r & Er & Pr). destruct (c44_OG' m N g p lam Hg Hm HN Hl) as (r' & c & E & (H1 & _) & H2).
  rewrite Er in E. injection E as <-. rewrite <- (Pr _), H1. specialize (H2 mu). unfold class_OG in Hmu.
  destruct (og_inv m N g Hg Hm) as [(n & -> & En & Ev & Hn & _)|(n & -> & En & Ev & Hn & _)]; rewrite Ev, En in *.
  - destruct H2 as [((Hc & _) & _)|(_ & Z0)]; [|auto]. exfalso. apply Hmu. replace (n - (n - m)) with m in Hc by lia. replace (2 * n + 1 - 1 - m) with (n + (n - m)) by lia. auto.
  - destruct H2 as [((Hc & _) & _)|(_ & Z0)]; [|auto]. exfalso. apply Hmu. replace (n + 1 - 1 + 1 - (n + 1 - m)) with m in Hc by lia.
    replace (2 * n + 2 - 1 - m) with (n + 1 - 1 + (n + 1 - m)) by lia. auto.
Qed.

(** *** Gr(m,n): indices that are not negative are covered by the Pieri rule *)
Lemma a_zero m k i lam a mu : 1 <= m -> 0 <= k -> 0 <= i -> in_box m k lam -> pieriA_inner i lam k (m + k) = Ok a -> ~ in_box m k mu -> coef a [vS mu] = 0%Qc.
Proof.
  intros Hm Hk Hi Hl Ea Hmu. destruct (pieriA_sum m k Hm Hk i lam Hl Hi) as (p & E & _ & H2).
  destruct (pieri_of_fun (gA m k) i lam a) as (r & Er & Pr); [exact Ea|]. rewrite Er in E. injection E as <-. rewrite <- (Pr _).
  destruct (Qc_eq_dec (coef r [vS mu]) 0%Qc) as [|N]; [auto|exfalso]. apply Hmu. destruct (H2 _ N) as (d & nu & (-> & Hv & _) & HP).
  apply (Sys.qS_inj 0 mu 0 nu) in HP. destruct HP as (_ & ->). auto.
Qed.

(** *** and the index -k gives at most the class of the whole space *)
Lemma get_nth {A} (l : list A) i x d : py_get l i = Ok x -> 0 <= i -> x = nth (Z.to_nat i) l d /\ i < zlen l.
Proof.
  intros H Hi. destruct (Z.lt_ge_cases i (zlen l)) as [Hl|Hl]; [|rewrite py_get_out in H by auto; discriminate].
  rewrite (py_get_in l i d) in H by lia. injection H as <-. auto.
Qed.
Lemma set_upd {A} (l : list A) i v l' : py_set l i v = Ok l' -> 0 <= i -> l' = upd l (Z.to_nat i) v /\ i < zlen l.
Proof.
  intros H Hi. unfold py_set, py_idx in H. destruct (Z.ltb_spec i 0); [lia|]. destruct (Z.leb_spec 0 i); [|lia]. cbn [andb] in H.
  destruct (Z.ltb_spec i (zlen l)); [|discriminate]. injection H as <-. auto.
Qed.
Definition lowto (a : nat) (r : list Z) : Prop := forall j, (j < a)%nat -> part r j <= 0.
Lemma fill_low inner outer c : forall a r pp r' pp', (1 <= a)%nat -> lowto a r ->
  foldM (fillA_step inner outer) (map Z.of_nat (seq a c)) (r, pp) = Ok (r', pp') -> length r' = length r /\ lowto (a + c) r'.
Proof.
  induction c as [|c IH]; intros a r pp r' pp' Ha Hr H.
  - cbn in H. injection H as <- <-. rewrite Nat.add_0_r. auto.
  - cbn [seq map foldM] in H. unfold fillA_step at 1 in H. destruct (py_get outer _) as [o|]; [|discriminate]. cbn [bind] in H.
    destruct (py_get inner _) as [i|]; [|discriminate]. cbn [bind] in H. destruct (py_get r _) as [pv|] eqn:Ep; [|discriminate]. cbn [bind] in H.
    destruct (py_set r _ _) as [r1|] eqn:Es; [|discriminate]. cbn [bind] in H.
    apply (get_nth r _ pv 0) in Ep; [|lia]. destruct Ep as (-> & _). apply set_upd in Es; [|lia]. destruct Es as (-> & Hlen).
    rewrite Nat2Z.id in H. apply IH in H; [|lia|].
    + destruct H as (H1 & H2). rewrite upd_length in H1. split; auto. replace (a + S c)%nat with (S a + c)%nat by lia. auto.
    + intros j Hj. destruct (Nat.eq_dec j a) as [->|E].
      * rewrite part_upd_same by (unfold zlen in Hlen; lia). replace (Z.to_nat (Z.of_nat a - 1)) with (a - 1)%nat by lia.
        pose proof (Hr (a - 1)%nat ltac:(lia)) as Q. unfold part in Q. lia.
      * rewrite part_upd_other by auto. apply Hr. lia.
Qed.
Lemma fill_neg inner outer p mu : part inner 0 + p <= 0 -> inner <> [] -> pieri_fillA inner inner outer 0 p = Ok (Some mu) ->
  length mu = length inner /\ forall j, part mu j <= 0.
Proof.
  intros Hp Hn H. unfold pieri_fillA in H. destruct inner as [|x0 t] eqn:Ei; [congruence|]. rewrite <- Ei in *. cbn [Z.eqb] in H.
  destruct (py_get outer 0) as [o|]; [|discriminate]. cbn [bind] in H. destruct (py_get inner 0) as [i0|] eqn:E0; [|discriminate]. cbn [bind] in H.
  destruct (py_set inner 0 _) as [r|] eqn:Es; [|discriminate]. cbn [bind] in H.
  destruct (foldM _ _ _) as [[r' pp']|] eqn:Ef; [|discriminate]. cbn [bind] in H. destruct (0 <? pp'); [discriminate|]. injection H as <-.
  apply (get_nth inner 0 i0 0) in E0; [|lia]. destruct E0 as (-> & Hlen). apply set_upd in Es; [|lia]. destruct Es as (-> & _).
  assert (El : zlen inner = Z.of_nat (length inner)) by reflexivity.
  replace (zrange 1 (zlen inner)) with (map Z.of_nat (seq 1 (length inner - 1))) in Ef.
  - apply fill_low in Ef; [|lia|].
    + destruct Ef as (H1 & H2). rewrite upd_length in H1. assert (Er : sl_to r' (zlen inner) = r').
      { unfold sl_to, sl_bound. destruct (Z.ltb_spec (zlen inner) 0); [lia|]. unfold zlen in *. rewrite H1. rewrite firstn_all2; auto. lia. }
      rewrite Er. split; auto. intros j. destruct (Nat.lt_ge_cases j (length inner)) as [Hj|Hj]; [apply H2; lia|]. unfold part. rewrite nth_overflow by lia. lia.
    + intros j Hj. replace j with 0%nat by lia. change (Z.to_nat 0) with 0%nat. rewrite part_upd_same by (unfold zlen in Hlen; lia). unfold part in Hp. lia.
  - unfold zrange. rewrite El. replace (Z.to_nat (Z.of_nat (length inner) - 1)) with (length inner - 1)%nat by lia.
    rewrite <- seq_shift, map_map. apply map_ext. intros j. lia.
Qed.
Lemma itr_low mu inner outer o : length mu = length inner -> (forall j, part mu j <= 0) -> (forall j, 0 <= part inner j) ->
  pieri_itrA mu inner outer = Ok o -> o = None.
Proof.
  intros Hl Hmu Hi H. unfold pieri_itrA in H. destruct mu as [|x t] eqn:Em; [congruence|]. rewrite <- Em in *.
  destruct (py_get mu (-1)) as [a|]; [|discriminate]. cbn [bind] in H. destruct (py_get inner (-1)) as [b|]; [|discriminate]. cbn [bind] in H.
  assert (Hr : forall r, In r (rev (zrange 0 (zlen mu - 1))) -> 0 <= r) by (intros r Hr; rewrite <- in_rev, in_zrange in Hr; lia).
  revert H Hr. generalize (a - b). generalize (rev (zrange 0 (zlen mu - 1))). intros rs. induction rs as [|r rs IH]; intros p H Hr; cbn [itrA_loop] in H; [congruence|].
  destruct (py_get mu r) as [a'|] eqn:Ea; [|discriminate]. cbn [bind] in H. destruct (py_get inner r) as [b'|] eqn:Eb; [|discriminate]. cbn [bind] in H.
  pose proof (Hr r (or_introl eq_refl)) as Hr0.
  apply (get_nth mu r a' 0) in Ea; auto. apply (get_nth inner r b' 0) in Eb; auto. destruct Ea as (-> & _), Eb as (-> & _).
  specialize (Hmu (Z.to_nat r)). pose proof (Hi (Z.to_nat r)) as Hi'. unfold part in Hmu, Hi'.
  destruct (Z.ltb_spec (nth (Z.to_nat r) inner 0) (nth (Z.to_nat r) mu 0)); [lia|]. eapply IH; eauto. intros; apply Hr; simpl; auto.
Qed.
Lemma bloop_inv {S R} (body : S -> res (step S R)) (Inv : S -> Prop) (Q : R -> Prop) :
  (forall s s', Inv s -> body s = Ok (Next s') -> Inv s') -> (forall s r, Inv s -> body s = Ok (Done r) -> Q r) ->
  forall d s x, Inv s -> bloop d body s = Ok x -> match x with Next s' => Inv s' | Done r => Q r end.
Proof.
  intros H1 H2. induction d as [|d IH]; intros s x Hs H; cbn [bloop] in H.
  - destruct x; eauto.
  - destruct (bloop d body s) as [y|] eqn:E; [|discriminate]. cbn [bind] in H. pose proof (IH s y Hs E) as Hy.
    destruct y as [s'|r]; [eapply IH; eauto|]. injection H as <-. auto.
Qed.
Lemma low_nil mu : (forall j, part mu j <= 0) -> schur_nonneg (SP (part_clip mu)) = true -> part_clip mu = [].
Proof.
  intros Hmu Hn. destruct (clip_char mu) as (c & _ & Hc). destruct (part_clip mu) as [|x l] eqn:E; [auto|exfalso].
  assert (HA : forall y, In y (x :: l) -> y = 0).
  { intros y Hy. unfold schur_nonneg in Hn. rewrite forallb_forall in Hn. specialize (Hn y Hy). apply In_nth with (d := 0) in Hy. destruct Hy as (j & _ & Ej).
    specialize (Hmu j). rewrite <- part_clip_part, E in Hmu. unfold part in Hmu. lia. }
  destruct (exists_last (l := x :: l) ltac:(discriminate)) as (a & y & Ey). apply (Hc a). rewrite Ey. rewrite (HA y); [reflexivity|]. rewrite Ey. apply in_or_app. right. left. auto.
Qed.
Lemma a_neg m k p lam a mu : 1 <= m -> 0 <= k -> in_box m k lam -> part lam 0 + p <= 0 -> pieriA_inner p lam k (m + k) = Ok a -> mu <> [] -> coef a [vS mu] = 0%Qc.
Proof.
  intros Hm Hk Hl Hp H Hmu. unfold pieriA_inner in H. replace (m + k - k) with m in H by lia.
  change (padding_right lam 0 (m - zlen lam)) with (padm m lam) in H.
  pose proof (in_box_wbox _ _ _ Hl) as Wl. pose proof (part_nonneg_w m k _ Hm Hk Wl) as Pl. destruct Wl as (_ & Ll).
  assert (Hn : padm m lam <> []) by (intros E; rewrite E in Ll; cbn in Ll; lia).
  destruct (pieri_fillA _ _ _ _ _) as [o|] eqn:Ef; [|discriminate]. cbn [bind] in H. unfold loop2 in H.
  destruct (bloop _ _ _) as [x|] eqn:Eb; [|discriminate]. cbn [bind] in H.
  assert (K : match x with Next s' => True | Done r => supp (fun m => m = [vS []]) r end).
  { pose proof (bloop_inv (pieriA_body (padm m lam) (k :: sl_to (padm m lam) (-1)))
      (fun st => supp (fun m => m = [vS []]) (snd st) /\ match fst st with None => True | Some nu => length nu = length (padm m lam) /\ forall j, part nu j <= 0 end)
      (fun r => supp (fun m => m = [vS []]) r)) as B.
    eapply B in Eb; [destruct x; auto| | |].
    - intros [[nu|] acc] [o' acc'] (S1 & S2) Hb; cbn [fst snd] in *; unfold pieriA_body in Hb; [|discriminate].
      destruct S2 as (L1 & L2). unfold symbol in Hb. destruct (schur_nonneg _) eqn:En; [|discriminate]. cbn [bind] in Hb.
      destruct (pieri_itrA _ _ _) as [o1|] eqn:Eo; [|discriminate]. cbn [bind] in Hb. injection Hb as <- <-.
      apply itr_low in Eo; auto; [|intros j; apply Pl]. subst o1. split; [|exact I]. apply supp_padd; auto. rewrite (low_nil nu L2 En).
      intros mo Hmo. unfold pvar, coef in Hmo. cbn [fold_right fst snd] in Hmo. destruct (mono_eqb _ mo) eqn:E; [|congruence].
      apply mono_eqb_perm, Permutation_length_1_inv in E. auto.
    - intros [[nu|] acc] r (S1 & S2) Hb; cbn [fst snd] in *; unfold pieriA_body in Hb.
      + destruct (symbol _); [|discriminate]. cbn [bind] in Hb. destruct (pieri_itrA _ _ _); discriminate.
      + injection Hb as <-. auto.
    - cbn [fst snd]. split; [apply supp_zero|]. destruct o as [nu|]; [|exact I]. apply fill_neg in Ef; auto. rewrite part_padm. auto. }
  destruct x as [|r]; [discriminate|]. injection H as <-. destruct (Qc_eq_dec (coef r [vS mu]) 0%Qc) as [|N]; [auto|]. apply K in N. injection N as N. contradiction.
Qed.

(** ** Functions of the library *)
Lemma gsel_index k lam p lam0 : gsel k lam = Ok (p, lam0) -> schur_nonneg (SP lam) = true -> 0 <= k -> 0 <= p \/ p = - k.
Proof.
  intros H Hn Hk. unfold gsel in H. assert (Hh : 0 <= hd 0 lam).
  { destruct lam as [|x l]; cbn [hd]; [lia|]. unfold schur_nonneg in Hn. cbn [forallb] in Hn. apply andb_prop in Hn. lia. }
  destruct (if last lam 1 =? 0 then _ else _) as [l0|]; [|discriminate]. cbn [bind] in H. injection H as <- <-.
  destruct ((hd 0 lam =? k) && (last lam 1 =? 0)); auto.
Qed.
Lemma raises_bind {A B} (x : res A) (f : A -> res B) : raises x -> raises (y <- x ;; f y).
Proof. intros (e & ->). exists e. reflexivity. Qed.
Lemma refuses_intro (V : list Z -> Prop) g : V [] ->
  (forall lam p lam0 a mu, gsel (g_k g) lam = Ok (p, lam0) -> schur_nonneg (SP lam) = true -> V lam0 -> pieri_fun g p lam0 = Ok a -> ~ V mu -> coef a [vS mu] = 0%Qc) ->
  refuses V g /\ endless V g.
Proof.
  intros Hn H. split; [|intros d a s Hs Hc; split; [eapply giam_raises; eauto|eapply giam_raises; eauto; intros lam p lam0 y mu Hg Hnn V0 Hy Hmu; eapply qpieri_zero; eauto]].
  intros a s Hs Hc.
  assert (H1 : raises (giambelli g a)) by (eapply giam_raises; eauto).
  assert (H2 : raises (qgiambelli g a)).
  { eapply giam_raises; eauto. intros lam p lam0 y mu Hg Hnn V0 Hy Hmu. eapply qpieri_zero; eauto. }
  unfold toS, qtoS, mult, qmult. split; [auto|]. split; [apply raises_bind; auto|]. split; [auto|]. split; [apply raises_bind; auto|].
  intros b. split; apply raises_bind; auto.
Qed.
Lemma c95_A m n g : Grassmannian m n = Ok g -> 1 <= m -> refuses (in_box m (n - m)) g /\ endless (in_box m (n - m)) g.
Proof.
  intros Hg Hm. apply gr_inv in Hg. destruct Hg as (_ & Hk & ->). apply refuses_intro; [apply in_box_nil; lia|].
  intros lam p lam0 a mu Hs Hnn V0 Ha Hmu. destruct (gsel_index _ _ _ _ Hs Hnn Hk) as [Hp| ->].
  - apply (a_zero m (n - m) p lam0 a mu Hm Hk Hp V0); auto.
  - assert (Hz : mu <> []) by (intros ->; apply Hmu, in_box_nil; lia). pose proof V0 as (_ & _ & V1). cbn [g_k] in *.
    apply (a_neg m (n - m) (- (n - m)) lam0 a mu Hm Hk V0); [lia| |auto]. exact Ha.
Qed.
Lemma kstrict_in_nil k rows cols : 0 <= k -> 0 <= rows -> 0 <= cols -> kstrict_in k rows cols [].
Proof. intros. split; [apply in_box_nil; auto|]. intros j Hj. unfold part in Hj. destruct j; cbn in Hj; lia. Qed.
Lemma c95_IG m N g : IsotropicGrassmannian m N = Ok g -> refuses (class_IG m N) g /\ endless (class_IG m N) g.
Proof.
  intros Hg. apply refuses_intro.
  - destruct (ig_inv m N g Hg) as (n & -> & En & Hm & _). unfold class_IG. apply kstrict_in_nil; lia.
  - intros lam p lam0 a mu _ _ V0 Ha Hmu. eapply ig_zero; eauto.
Qed.
Lemma c95_OG m N g : OrthogonalGrassmannian m N = Ok g -> m <= N / 2 -> 1 <= N -> refuses (class_OG m N) g /\ endless (class_OG m N) g.
Proof.
  intros Hg Hm HN. apply refuses_intro.
  - unfold class_OG. destruct (og_inv m N g Hg Hm) as [(n & -> & En & Ev & Hn & _)|(n & -> & En & Ev & Hn & _)]; rewrite Ev; [|left]; apply kstrict_in_nil; lia.
  - intros lam p lam0 a mu _ _ V0 Ha Hmu. eapply og_zero; eauto.
Qed.

(** ** What is accepted *)
Lemma c95_right : ~ (forall m n g a b s, Grassmannian m n = Ok g -> 1 <= m ->
  not_in (in_box m (n - m)) s -> contains b s -> raises (mult g a b) \/ exists r, mult g a b = Ok r /\ peq r pzero).
Proof.
  intros H. specialize (H 2 4 (mkGr TA 2 4) (pS [1]) (pS [3]) (SP [3]) eq_refl).
  destruct H as [(e & H)|(r & H & Hr)].
  - lia.
  - intros l El. injection El as <-. intros (_ & _ & Hp). cbn in Hp. lia.
  - exists [vS [3]]. split; [vm_compute; discriminate|left; reflexivity].
  - vm_compute in H. discriminate.
  - vm_compute in H. injection H as <-. specialize (Hr [vS [2; 2]]). vm_compute in Hr. discriminate.
Qed.
Lemma c95_index : ~ (forall m n g i lam, Grassmannian m n = Ok g -> 1 <= m ->
  in_box m (n - m) lam -> i < 0 -> raises (pieri g i (pS lam)) \/ exists r, pieri g i (pS lam) = Ok r /\ peq r pzero).
Proof.
  intros H. specialize (H 3 6 (mkGr TA 3 6) (-1) [2; 1] eq_refl).
  destruct H as [(e & H)|(r & H & Hr)].
  - lia.
  - apply in_boxb_ok. reflexivity.
  - lia.
  - vm_compute in H. discriminate.
  - vm_compute in H. injection H as <-. specialize (Hr [vS [1; 1]]). vm_compute in Hr. discriminate.
Qed.
Lemma c95_qindex : ~ (forall m n g i lam, Grassmannian m n = Ok g -> 1 <= m ->
  in_box m (n - m) lam -> n - m < i -> raises (qpieri g i (pS lam)) \/ exists r, qpieri g i (pS lam) = Ok r /\ peq r pzero).
Proof.
  intros H. specialize (H 2 3 (mkGr TA 1 3) 5 [1; 1] eq_refl).
  destruct H as [(e & H)|(r & H & Hr)].
  - lia.
  - apply in_boxb_ok. reflexivity.
  - lia.
  - vm_compute in H. discriminate.
  - vm_compute in H. injection H as <-. specialize (Hr [VQ; vS []]). vm_compute in Hr. discriminate.
Qed.
Lemma not_kstrict_22 m c : ~ kstrict_in 1 m c [2; 2].
Proof. intros (_ & H). specialize (H O). unfold kstrict, part in H. cbn in H. lia. Qed.
Lemma c95_case :
  Grassmannian 2 4 = Ok (mkGr TA 2 4) /\ not_in (in_box 2 (4 - 2)) (SP [3]) /\
  contains (padd (pS [1]) (pS [3])) (SP [3]) /\ mult (mkGr TA 2 4) (padd (pS [1]) (pS [3])) (pS [1]) = Err RecursionError /\
  IsotropicGrassmannian 2 6 = Ok (mkGr TC 1 3) /\ not_in (class_IG 2 6) (SP [2; 2]) /\ contains (pS [2; 2]) (SP [2; 2]) /\
  OrthogonalGrassmannian 2 7 = Ok (mkGr TB 1 3) /\ not_in (class_OG 2 7) (SP [2; 2]).
Proof.
  split; [reflexivity|]. split; [intros l El; injection El as <-; intros (_ & _ & Hp); cbn in Hp; lia|].
  split; [exists [vS [3]]; split; [vm_compute; discriminate|left; reflexivity]|]. split; [vm_compute; reflexivity|].
  split; [reflexivity|]. split; [intros l El; injection El as <-; apply not_kstrict_22|].
  split; [exists [vS [2; 2]]; split; [vm_compute; discriminate|left; reflexivity]|].
  split; [reflexivity|]. intros l El. injection El as <-. apply not_kstrict_22.
Qed.
