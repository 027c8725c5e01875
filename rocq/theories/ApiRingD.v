(** The rings of OG(m,N), N even: the lemmas behind PropsRingD.v. *)

From Coq Require Import ZArith List Lia Bool Permutation QArith Qcanon Setoid Morphisms.
From Verif Require Import Py OrderFacts ModelPart ModelQcalc ModelPoly ModelStr ModelGr Spec SpecPieri SpecRing
  PolyFacts SuppFacts OpTheory Enum PyFacts PartFacts CompsFacts CompsBound WSum PieriCoef PieriD QPieriD GrInv ApiPieriQ Sys Sys2 SysApi SysRing CoefSys CommC CommB RecBCD RingC RingB RingData ApiRing RingD RingD0.
Import ListNotations.
Open Scope Z_scope.

Lemma coef_D_unique k n p lam mu c c' : coef_D k n p lam mu c -> coef_D k n p lam mu c' -> c = c'.
Proof.
  intros [(H1 & N & H2 & _ & ->)|(H1 & ->)] [(H3 & N' & H4 & _ & ->)|(H3 & ->)]; try tauto.
  rewrite (component_count_unique _ _ _ _ H2 H4). reflexivity.
Qed.

(** half of [ring_data] *)
Record half_data (g : gr) (pi : Z -> list Z -> res poly) (V : list Z -> Prop) (I : Z -> Prop) (mu : list Z -> nat) : Prop := {
  hf_sys : pieri_sys (g_type g) pi V I (g_k g) mu (giam_fuel g);
  hf_V : forall i, I i -> V (num2spec i);
  hf_sp : forall i, I i -> peq (pS (num2spec i)) (P pi i []);
  hf_gsel : forall l p l0, V l -> gsel (g_k g) l = Ok (p, l0) -> size l = size l0 + Z.abs p;
  hf_gr : graded (degree_q g) I V pi
}.

Section D.
Variables (k n : Z) (qq : bool).
Hypothesis Hok : okD qq k n.
Notation V := (typed_in k (n + 1 - k) (n + k)).
Lemma gselD_deg l p l0 : V l -> gsel k l = Ok (p, l0) -> size l = size l0 + Z.abs p.
Proof.
  intros Hl E. destruct l as [|x t]; [revert E; apply gsel_deg_part; apply (kstrict_nil k (n + 1 - k) (n + k)); destruct Hok; lia|].
  destruct (gselD k n qq Hok _ Hl ltac:(discriminate)) as (p' & l0' & E' & _ & Hl0 & (Es & _)). rewrite E in E'. injection E' as <- <-.
  rewrite <- (size_shape _ _ _ _ Hl), <- (size_shape _ _ _ _ Hl0), Es. change (size (Z.abs p :: shape l0)) with (Z.abs p + size (shape l0)). lia.
Qed.
Lemma head_special i : ID k n i -> headD k (num2spec i) i [].
Proof.
  intros Hi. destruct Hok as (Hk & _). unfold headD, num2spec. destruct (Z.ltb_spec 0 i) as [L|L].
  - rewrite Z.abs_eq by lia. split; [cbn; replace (0 <? i) with true by lia; reflexivity|]. split; [lia|].
    change (type_of k []) with 0. assert (Et : type_of k [i] = if k =? i then 1 else 0) by (unfold type_of; cbn [existsb last]; replace (i =? 0) with false by lia; rewrite orb_false_r; reflexivity).
    rewrite Et. destruct (Z.eqb_spec k i) as [->|E]; [right; replace (i <? 0) with false by lia; auto|left; split; auto; split; lia].
  - destruct Hi as [Hi| ->]; [lia|]. rewrite Z.opp_involutive. replace (Z.abs (- k)) with k by lia.
    split; [cbn; replace (0 <? k) with true by lia; reflexivity|]. split; [auto|]. right. split; [auto|]. split; [reflexivity|].
    replace (- k <? 0) with true by lia. unfold type_of. cbn [existsb last]. rewrite Z.eqb_refl. reflexivity.
Qed.
Lemma specialD i : ID k n i -> peq (pS (num2spec i)) (P (piD k n qq) i []).
Proof.
  intros Hi. pose proof Hok as (Hk & Hq). assert (Hn : V []) by (left; apply kstrict_nil; lia). assert (HV := num2spec_D k n qq Hok i Hi).
  assert (Hap : 1 <= Z.abs i <= n + k) by (destruct Hi as [H|H]; lia).
  destruct (piD_coefs k n qq Hok i [] Hn) as (r & W & E & HQ & H). unfold P. rewrite E.
  pose proof (fun nu => coef_D_head k n qq Hok (num2spec i) i [] nu _ HV Hn (head_special i Hi) (piD_0 k n qq Hok i [] W H nu)) as HH.
  apply (special_coefs r _ W HQ); [apply HH; reflexivity|].
  intros d nu HW. destruct (piD_supp k n qq Hok i [] W H d nu HW) as (A0 & A1 & A2 & A3). destruct d as [|d].
  - split; auto. destruct (list_eq_dec Z.eq_dec nu (num2spec i)) as [|Hne]; auto. exfalso. destruct (HH nu) as (_ & G). destruct (G HW Hne) as (_ & G1 & G2).
    assert (Eh : part (num2spec i) 0 = Z.abs i) by (unfold num2spec; destruct (Z.ltb_spec 0 i); unfold part; cbn [nth]; lia).
    destruct (typed_shape _ _ _ _ A1) as (((Hp & _) & _) & _). rewrite <- (typed_part _ _ _ nu 0 A1) in G2. change (size []) with 0 in A3. rewrite <- (size_shape _ _ _ _ A1) in A3.
    destruct (shape nu) as [|x t]; [unfold part in G2; cbn in G2; unfold part in Eh; lia|]. destruct (partition_tl x t Hp) as (Ht & _). pose proof (size_nonneg t Ht).
    change (size (x :: t)) with (x + size t) in A3. unfold part in G2 at 2. cbn [nth] in G2. lia.
  - exfalso. destruct A2 as [A2|A2]; [discriminate|]. destruct qq; [|discriminate]. destruct H as (_ & H1 & H2 & H3). destruct d as [|[|d]]; [| |lia].
    + specialize (H1 nu A1). change (Z.of_nat (length (shape []))) with 0 in H1. replace (0 =? n + 1 - k) with false in H1 by lia. congruence.
    + specialize (H2 nu). change (part [] 0) with 0 in H2. replace (0 =? n + k) with false in H2 by lia. congruence.
Qed.
End D.
Lemma q0D k n i l : okD true k n -> typed_in k (n + 1 - k) (n + k) l -> peq (psubst z0 (P (piD k n true) i l)) (P (piD k n false) i l).
Proof.
  intros Hok Hl. assert (Hok' : okD false k n) by (destruct Hok; split; auto; discriminate).
  destruct (piD_coefs k n true Hok i l Hl) as (r & W & E & HQ & H0 & _). destruct (piD_coefs k n false Hok' i l Hl) as (r' & W' & E' & HQ' & H0' & H1').
  unfold P. rewrite E, E'. apply (q0_coefs r r' W W' HQ HQ').
  - intros nu. apply (coef_D_unique _ _ _ _ _ _ _ (H0 nu) (H0' nu)).
  - exact H1'.
Qed.

Lemma class_even m N n : Z.even N = true -> N / 2 = n + 1 -> N = 2 * n + 2 -> class_OG m N = typed_in (n + 1 - m) (n + 1 - (n + 1 - m)) (n + (n + 1 - m)).
Proof. intros Ev En EN. unfold class_OG. rewrite Ev, En. change (typed_in (n + 1 - m) m (N - 1 - m) = typed_in (n + 1 - m) (n + 1 - (n + 1 - m)) (n + (n + 1 - m))). f_equal; lia. Qed.

Section Even.
Variables (m N : Z) (g : gr).
Hypothesis Hg : OrthogonalGrassmannian m N = Ok g.
Hypothesis HN : Z.even N = true.
Hypothesis H4 : 4 <= N.
Hypothesis Hm : 1 <= m <= N / 2.
Notation V := (class_OG m N).
Notation I := (index_even m N).

Lemma graded_even qq : (qq = true -> m <> N / 2 - 1) -> graded (degree_q g) I V (if qq then qpieri_fun g else pieri_fun g).
Proof.
  intros Hq i l Hi Hl. destruct qq.
  - destruct (c44_qOG_even m N g i l Hg HN H4 Hm ltac:(auto) Hl) as (r & c & E & _ & _ & A & B). exists r. split; auto.
  - destruct (c44_OG m N g i l Hg ltac:(lia) ltac:(lia) Hl) as (r & c & E & _ & _ & A & B). rewrite HN in B. exists r. split; auto.
Qed.
Lemma half_even : exists mu, forall qq, (qq = true -> m <> N / 2 - 1) -> half_data g (if qq then qpieri_fun g else pieri_fun g) V I mu.
Proof.
  pose proof graded_even as HG. destruct (og_inv m N g Hg ltac:(lia)) as [(n & _ & _ & Ev' & _)|(n & EN & En & Ev & Hmn & Eg)]; [congruence|].
  exists (muM (n + (n + 1 - m))). intros qq Hq. specialize (HG qq Hq). unfold index_even in *. rewrite (class_even m N n Ev En EN) in *. set (k := n + 1 - m) in *.
  replace (N / 2 - m) with k in * by (unfold k; lia). replace (N - 1 - m) with (n + k) in * by (unfold k; lia). subst g. fold (gD k n) in *. fold (piD k n qq) in *.
  destruct (Z.eq_dec k 0) as [Ek|Ek].
  - (* k = 0 *)
    assert (HV : forall l, typed_in k (n + 1 - k) (n + k) l <-> kstrict_in 0 (n - 0) (n + 0) l).
    { intros l. rewrite Ek. replace (n + 1 - 0) with (n + 1) by lia. rewrite Z.add_0_r at 1. apply typed0. lia. }
    assert (HI : forall i, (1 <= i <= n + k \/ m < N / 2 /\ i = - k) <-> 1 <= i <= n + 0) by (intros; unfold k in *; lia).
    assert (Hs := sysD0 n qq ltac:(lia)). rewrite Ek in *.
    assert (HB : peq (pS []) (pS [])) by reflexivity.
    split; cbn [g_type g_k gD].
    + destruct Hs. split; intros; rewrite ?HV, ?HI in *; eauto.
      * eapply supp_impl; [|apply ps_lin; auto]. intros mo (x & qm & A & B). exists x, qm. rewrite HV. auto.
      * destruct (ps_rec l ltac:(auto) ltac:(auto)) as (p & l0 & A & B & C & D). exists p, l0. rewrite HI. split; auto. split; auto.
        assert (HB' : forall x, below (kstrict_in 0 (n - 0) (n + 0)) (muM (n + 0)) l x <-> below (typed_in 0 (n + 1 - 0) (n + 0)) (muM (n + 0)) l x) by (intros x; unfold below; rewrite HV; tauto).
        split; [apply HB'; auto|]. eapply supp_impl; [|exact D]. intros mo (x & qm & A' & B'). exists x, qm. rewrite <- HB'. auto.
    + intros i Hi. rewrite HI in Hi. rewrite HV, num2spec_pos by lia. apply kstrict_row1; lia.
    + intros i Hi. rewrite HI in Hi. rewrite num2spec_pos by lia.
      rewrite <- (proj2 (piD0_agree n qq i [] ltac:(lia) ltac:(lia) ltac:(left; apply kstrict_nil; lia))). apply (specialB 0 n ltac:(lia) ltac:(lia) qq). lia.
    + intros l p l0 Hl. rewrite HV in Hl. apply gsel_deg_part. apply Hl.
    + exact HG.
  - assert (Hok : okD qq k n) by (split; [unfold k; lia|]; intros Eq; specialize (Hq Eq); unfold k in *; lia).
    assert (HI : forall i, (1 <= i <= n + k \/ m < N / 2 /\ i = - k) <-> ID k n i) by (intros; unfold ID, k in *; lia).
    assert (Hs := sysD k n qq Hok).
    split; cbn [g_type g_k gD].
    + destruct Hs. split; intros; rewrite ?HI in *; eauto.
      destruct (ps_rec l ltac:(auto) ltac:(auto)) as (p & l0 & A & B & C). exists p, l0. rewrite HI. auto.
    + intros i Hi. rewrite HI in Hi. apply (num2spec_D k n qq Hok i Hi).
    + intros i Hi. rewrite HI in Hi. apply (specialD k n qq Hok i Hi).
    + intros l p l0. apply (gselD_deg k n qq Hok).
    + exact HG.
Qed.
Lemma q0_even : m <> N / 2 - 1 -> forall i l, I i -> V l -> peq (psubst z0 (P (qpieri_fun g) i l)) (P (pieri_fun g) i l).
Proof.
  intros Hm1 i l Hi Hl. destruct (og_inv m N g Hg ltac:(lia)) as [(n & _ & _ & Ev' & _)|(n & EN & En & Ev & Hmn & Eg)]; [congruence|].
  unfold index_even in *. rewrite (class_even m N n Ev En EN) in *. set (k := n + 1 - m) in *.
  replace (N / 2 - m) with k in * by (unfold k; lia). replace (N - 1 - m) with (n + k) in * by (unfold k; lia). subst g. fold (gD k n) in *.
  change (peq (psubst z0 (P (piD k n true) i l)) (P (piD k n false) i l)).
  destruct (Z.eq_dec k 0) as [Ek|Ek].
  - assert (Hi1 : 1 <= i <= n) by (unfold k in *; lia). rewrite Ek in *. replace (n + 1 - 0) with (n + 1) in Hl by lia. rewrite Z.add_0_r in Hl.
    rewrite <- (proj2 (piD0_agree n true i l ltac:(lia) ltac:(lia) Hl)), <- (proj2 (piD0_agree n false i l ltac:(lia) ltac:(lia) Hl)).
    apply (q0B 0 n); try lia. apply typed0; auto; lia.
  - apply q0D; auto. split; [|intros _]; unfold k in *; lia.
Qed.

Lemma c27_OGeven : product_laws V (mult g) /\ (m <> N / 2 - 1 -> product_laws V (qmult g)).
Proof.
  destruct half_even as (mu & D). split.
  - apply (sys_laws (hf_sys _ _ _ _ _ (D false ltac:(discriminate)))).
  - intros Hm1. apply (sys_laws (hf_sys _ _ _ _ _ (D true (fun _ => Hm1)))).
Qed.
Lemma c27_conv_OGeven : conversion_laws V (mult g) (toS g) /\ (m <> N / 2 - 1 -> conversion_laws V (qmult g) (qtoS g)).
Proof.
  destruct half_even as (mu & D). split.
  - apply (sys_conv (hf_sys _ _ _ _ _ (D false ltac:(discriminate)))).
  - intros Hm1. apply (sys_conv (hf_sys _ _ _ _ _ (D true (fun _ => Hm1)))).
Qed.
Lemma c27_giam_OGeven : giambelli_laws V (special_even m N) (giambelli g) (act g) /\
  (m <> N / 2 - 1 -> giambelli_laws V (special_even m N) (qgiambelli g) (qact g)).
Proof.
  assert (HX : forall i, I i -> special_even m N (num2spec i)).
  { intros i [Hi|(Hi & ->)]; [left; exists i; split; auto; apply num2spec_pos; lia|right]. split; auto. unfold num2spec. replace (0 <? - (N / 2 - m)) with false by lia. f_equal. lia. }
  destruct half_even as (mu & D). split.
  - apply (sys_giambelli (hf_sys _ _ _ _ _ (D false ltac:(discriminate))) _ HX).
  - intros Hm1. apply (sys_giambelli (hf_sys _ _ _ _ _ (D true (fun _ => Hm1))) _ HX).
Qed.
Lemma c27_comm_OGeven : operators_commute V I (pieri g) /\ (m <> N / 2 - 1 -> operators_commute V I (qpieri g)).
Proof.
  destruct half_even as (mu & D). split.
  - apply (sys_pi_comm (hf_sys _ _ _ _ _ (D false ltac:(discriminate)))).
  - intros Hm1. apply (sys_pi_comm (hf_sys _ _ _ _ _ (D true (fun _ => Hm1)))).
Qed.
Lemma c45_OGeven i c : I i -> lin_comb V c ->
  (exists r r', mult g (pS (special_class i)) c = Ok r /\ pieri g i c = Ok r' /\ peq r r') /\
  (m <> N / 2 - 1 -> exists r r', qmult g (pS (special_class i)) c = Ok r /\ qpieri g i c = Ok r' /\ peq r r').
Proof.
  intros Hi Hc. change (special_class i) with (num2spec i). destruct half_even as (mu & D). split.
  - pose proof (D false ltac:(discriminate)) as H. apply (sys_special (hf_sys _ _ _ _ _ H) i _ c Hi (hf_V _ _ _ _ _ H i Hi) (hf_sp _ _ _ _ _ H i Hi) Hc).
  - intros Hm1. pose proof (D true (fun _ => Hm1)) as H. apply (sys_special (hf_sys _ _ _ _ _ H) i _ c Hi (hf_V _ _ _ _ _ H i Hi) (hf_sp _ _ _ _ _ H i Hi) Hc).
Qed.
Lemma c46_OGeven lam nu : V lam -> V nu ->
  (exists r, mult g (pS lam) (pS nu) = Ok r /\ homogeneous (degree_q g) (size lam + size nu) r /\ integral r) /\
  (m <> N / 2 - 1 -> exists r, qmult g (pS lam) (pS nu) = Ok r /\ homogeneous (degree_q g) (size lam + size nu) r /\ integral r).
Proof.
  intros Hl Hn. destruct half_even as (mu & D). split; [|intros Hm1].
  - pose proof (D false ltac:(discriminate)) as H. apply (sys_homog (hf_sys _ _ _ _ _ H) size (degree_q g) lam nu); auto; try (apply (hf_gsel _ _ _ _ _ H));
    intros; apply (graded_P _ _ (ps_ok _ _ _ _ _ _ _ (hf_sys _ _ _ _ _ H)) (hf_gr _ _ _ _ _ H)); auto.
  - pose proof (D true (fun _ => Hm1)) as H. apply (sys_homog (hf_sys _ _ _ _ _ H) size (degree_q g) lam nu); auto; try (apply (hf_gsel _ _ _ _ _ H));
    intros; apply (graded_P _ _ (ps_ok _ _ _ _ _ _ _ (hf_sys _ _ _ _ _ H)) (hf_gr _ _ _ _ _ H)); auto.
Qed.
Lemma c47_OGeven : m <> N / 2 - 1 ->
  (forall a b, lin_comb0 V a -> lin_comb0 V b ->
     exists x r, qmult g a b = Ok x /\ mult g a b = Ok r /\ same_q_free_part x r) /\
  (forall a, poly_in V a -> (forall mo, In VQ mo -> coef a mo = 0%Qc) ->
     exists x r, qtoS g a = Ok x /\ toS g a = Ok r /\ same_q_free_part x r).
Proof.
  intros Hm1. destruct half_even as (mu & D). pose proof (D false ltac:(discriminate)) as H. pose proof (D true (fun _ => Hm1)) as H'.
  split; intros; [apply (sys_q0_mult (hf_sys _ _ _ _ _ H') (hf_sys _ _ _ _ _ H) (q0_even Hm1))|apply (sys_q0_toS (hf_sys _ _ _ _ _ H') (hf_sys _ _ _ _ _ H) (q0_even Hm1))]; auto.
Qed.
End Even.

(** OG(2,6) *)
Lemma c27_two_parameters : exists m N g lam mu nu r s,
  OrthogonalGrassmannian m N = Ok g /\ class_OG m N lam /\ class_OG m N mu /\ class_OG m N nu /\
  qmult g (pS lam) (pS mu) = Ok r /\ qmult g r (pS nu) = Err ValueError /\ qmult g (pS nu) r = Ok s.
Proof.
  assert (H1 : class_OG 2 6 [1]) by (left; apply (kstrict_row1 1 2 3 1); lia).
  assert (H2 : class_OG 2 6 [2; 1]).
  { left. split; [split; [split|split]|].
    - intros [|[|j]] Hj; unfold part; cbn in *; lia.
    - intros [|[|[|j]]]; unfold part; cbn; lia.
    - cbn. lia.
    - unfold part. cbn. lia.
    - intros [|[|[|j]]]; unfold part; cbn; lia. }
  exists 2, 6, (mkGr TD 1 2), [2; 1], [1], [1], [([vS [1; 0]; VQ1], 1%Qc)], [([vS [2]; VQ1], 1%Qc)].
  split; [reflexivity|]. split; [auto|]. split; [auto|]. split; [auto|]. split; [|split]; vm_compute; reflexivity.
Qed.
