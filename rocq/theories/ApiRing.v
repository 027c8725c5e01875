(** The rings of IG(m,N) and of OG(m,N), N odd: the lemmas behind PropsRing.v. *)

From Coq Require Import ZArith List Lia Bool Permutation QArith Qcanon Setoid Morphisms.
From Verif Require Import Py OrderFacts ModelPart ModelQcalc ModelPoly ModelStr ModelGr Spec SpecPieri SpecRing
  PolyFacts SuppFacts OpTheory Enum PyFacts PartFacts CompsFacts CompsBound WSum PieriCoef GrInv ApiPieriQ Sys Sys2 SysApi SysRing CoefSys CommC CommB RecBCD RingC RingB RingData.
Import ListNotations.
Open Scope Z_scope.

Lemma coef_IG_unique k n p s lam mu c c' : coef_IG k n p s lam mu c -> coef_IG k n p s lam mu c' -> c = c'.
Proof.
  intros [(H1 & N & H2 & _ & ->)|(H1 & ->)] [(H3 & N' & H4 & _ & ->)|(H3 & ->)]; try tauto.
  rewrite (component_count_unique _ _ _ _ H2 H4). reflexivity.
Qed.
Lemma coef_OG_unique k n p lam mu c c' : coef_OG k n p lam mu c -> coef_OG k n p lam mu c' -> c = c'.
Proof.
  intros [(H1 & N & H2 & _ & ->)|(H1 & ->)] [(H3 & N' & H4 & _ & ->)|(H3 & ->)]; try tauto.
  rewrite (component_count_unique _ _ _ _ H2 H4). reflexivity.
Qed.
Lemma kstrict_row1 k r c i : 0 <= k -> 1 <= r -> 1 <= i <= c -> kstrict_in k r c [i].
Proof.
  intros Hk Hr Hi. split; [split; [split|split]|].
  - intros [|j] Hj; unfold part; cbn in *; lia.
  - intros [|[|j]]; unfold part; cbn; lia.
  - cbn. lia.
  - unfold part. cbn. lia.
  - intros [|[|j]]; unfold part; cbn; lia.
Qed.
Lemma one_row i (mu : list Z) : is_partition mu -> 1 <= i -> i <= part mu 0 -> size mu <= i -> mu = [i].
Proof.
  intros Hp Hi Hh Hs. destruct mu as [|x t]; [unfold part in Hh; cbn in Hh; lia|]. destruct (partition_tl x t Hp) as (Ht & Hx & _).
  change (size (x :: t)) with (x + size t) in Hs. unfold part in Hh. cbn [nth] in Hh. pose proof (size_nonneg t Ht).
  destruct t as [|y u]; [f_equal; cbn in Hs; lia|]. exfalso. destruct (partition_tl y u Ht) as (Hu & Hy & _). pose proof (size_nonneg u Hu).
  change (size (y :: u)) with (y + size u) in Hs. lia.
Qed.
Lemma num2spec_pos i : 1 <= i -> num2spec i = [i].
Proof. intros H. unfold num2spec. replace (0 <? i) with true by lia. reflexivity. Qed.

(** ** IG *)
Section IG.
Variables k n : Z.
Hypothesis Hk : 0 <= k <= n.
Hypothesis Hm : 1 <= n - k.
Notation V := (kstrict_in k (n - k) (n + k)).

Lemma specialC qq i : 1 <= i <= n + k -> peq (pS [i]) (P (piC k n qq) i []).
Proof.
  intros Hi. assert (Hn : V []) by (apply kstrict_nil; lia). assert (HV : V [i]) by (apply kstrict_row1; lia).
  destruct (piC_coefs k n qq i [] Hk Hn ltac:(lia)) as (r & W & E & HQ & H0 & H1 & H2). unfold P. rewrite E. apply (special_coefs r [i] W HQ).
  - apply (coef_IG_tl k n i []); auto.
  - intros d nu HW. destruct d as [|[|d]].
    + split; auto. pose proof (coef_IG_supp _ _ _ _ _ _ _ (H0 nu) HW) as (A1 & A2 & A3). change (size []) with 0 in A2.
      destruct (arrow_head k 0 i [] nu) as [B1 B2]; auto; try lia; try apply Hn; try apply A1; try apply HV. apply one_row; auto; try lia. apply A1.
    + exfalso. specialize (H1 nu). destruct qq; [|congruence]. pose proof (coef_IG_supp _ _ _ _ _ _ _ H1 HW) as (A1 & A2 & A3).
      apply kstrict_row in A1; auto. pose proof (size_nonneg nu ltac:(apply A1)). change (size (n + k + 1 :: nu)) with (n + k + 1 + size nu) in A2. change (size []) with 0 in A2. lia.
    + exfalso. apply HW, H2. lia.
Qed.
Lemma q0C i l : 1 <= i <= n + k -> V l -> peq (psubst z0 (P (piC k n true) i l)) (P (piC k n false) i l).
Proof.
  intros Hi Hl. destruct (piC_coefs k n true i l Hk Hl ltac:(lia)) as (r & W & E & HQ & H0 & _). destruct (piC_coefs k n false i l Hk Hl ltac:(lia)) as (r' & W' & E' & HQ' & H0' & H1' & H2').
  unfold P. rewrite E, E'. apply (q0_coefs r r' W W' HQ HQ').
  - intros nu. apply (coef_IG_unique _ _ _ _ _ _ _ _ (H0 nu) (H0' nu)).
  - intros [|[|d]] nu Hd; [lia|apply H1'|apply H2'; lia].
Qed.
End IG.

Lemma rd_IG m N g : IsotropicGrassmannian m N = Ok g -> 1 <= m ->
  exists mu, ring_data g (class_IG m N) (fun i => 1 <= i <= N - m) mu.
Proof.
  intros Hg Hm. pose proof Hg as Hg'. apply ig_inv in Hg'. destruct Hg' as (n & EN & En & Hmn & Eg). set (k := n - m) in *.
  assert (EV : class_IG m N = kstrict_in k (n - k) (n + k)) by (change (class_IG m N) with (kstrict_in (N / 2 - m) m (N - m)); unfold k; rewrite En; f_equal; lia).
  assert (G1 : graded (degree_q g) (fun i => 1 <= i <= N - m) (class_IG m N) (pieri_fun g)).
  { intros i l Hi Hl. destruct (c44_IG m N g i l Hg Hl) as (r & c & E & _ & _ & A & B). exists r. rewrite Z.abs_eq by lia. split; auto. }
  assert (G2 : graded (degree_q g) (fun i => 1 <= i <= N - m) (class_IG m N) (qpieri_fun g)).
  { intros i l Hi Hl. destruct (c44_qIG m N g i l Hg Hl ltac:(lia)) as (r & c & E & _ & _ & A & B). exists r. rewrite Z.abs_eq by lia. split; auto. }
  exists (muM (n + k)). rewrite EV in *. replace (N - m) with (n + k) in * by (unfold k; lia). subst g. fold (gC k n) in *.
  split; cbn [g_type g_k gC].
  - apply (sysC k n ltac:(lia) false).
  - apply (sysC k n ltac:(lia) true).
  - intros i l Hi Hl. apply (q0C k n); auto. lia.
  - intros i Hi. rewrite num2spec_pos by lia. apply kstrict_row1; lia.
  - intros i Hi. rewrite num2spec_pos by lia. apply (specialC k n ltac:(lia) ltac:(lia) false); auto.
  - intros i Hi. rewrite num2spec_pos by lia. apply (specialC k n ltac:(lia) ltac:(lia) true); auto.
  - intros l p l0 Hl. apply gsel_deg_part. apply Hl.
  - exact G1.
  - exact G2.
Qed.

(** ** OG, odd *)
Section OGodd.
Variables k n : Z.
Hypothesis Hk : 0 <= k <= n.
Hypothesis Hm : 1 <= n - k.
Notation V := (kstrict_in k (n - k) (n + k)).
Let Hok qq : okB qq k n := conj Hk (conj (Z.le_trans 1 (n - k) n Hm ltac:(lia)) (fun _ => Hm)).

Lemma specialB qq i : 1 <= i <= n + k -> peq (pS [i]) (P (piB k n qq) i []).
Proof.
  intros Hi. assert (Hn : V []) by (apply kstrict_nil; lia). assert (HV : V [i]) by (apply kstrict_row1; lia).
  destruct (piB_coefs k n qq i [] (Hok qq) Hn) as (r & W & E & HQ & H0 & H1 & H2). unfold P. rewrite E. apply (special_coefs r [i] W HQ).
  - apply (coef_OG_tl k n i []); auto.
  - intros d nu HW. assert (Hd : d = 0%nat).
    { specialize (H1 nu). change (part [] 0) with 0 in H1. change (Z.of_nat (length (@nil Z))) with 0 in H1.
      replace (0 =? n + k) with false in H1 by lia. replace (0 =? n - k) with false in H1 by lia. cbn [andb] in H1.
      destruct d as [|[|[|d]]]; auto; exfalso; apply HW; try (apply H2; lia); destruct qq; [destruct (k =? 0)| |destruct (k =? 0)|]; tauto. }
    subst d. split; auto. pose proof (coef_OG_supp _ _ _ _ _ _ (H0 nu) HW) as (A1 & A2 & A3). change (size []) with 0 in A2.
    destruct (arrow_head k 0 i [] nu) as [B1 B2]; auto; try lia; try apply Hn; try apply A1; try apply HV. apply one_row; auto; try lia. apply A1.
Qed.
Lemma q0B i l : 1 <= i <= n + k -> V l -> peq (psubst z0 (P (piB k n true) i l)) (P (piB k n false) i l).
Proof.
  intros Hi Hl. destruct (piB_coefs k n true i l (Hok true) Hl) as (r & W & E & HQ & H0 & _). destruct (piB_coefs k n false i l (Hok false) Hl) as (r' & W' & E' & HQ' & H0' & H1' & H2').
  unfold P. rewrite E, E'. apply (q0_coefs r r' W W' HQ HQ').
  - intros nu. apply (coef_OG_unique _ _ _ _ _ _ _ (H0 nu) (H0' nu)).
  - intros [|[|[|d]]] nu Hd; [lia|apply H1'|apply H1'|apply H2'; lia].
Qed.
End OGodd.

Lemma rd_OGodd m N g : OrthogonalGrassmannian m N = Ok g -> Z.odd N = true -> 1 <= m <= N / 2 ->
  exists mu, ring_data g (class_OG m N) (fun i => 1 <= i <= N - 1 - m) mu.
Proof.
  intros Hg HN Hm. assert (Ev : Z.even N = false) by (rewrite <- Z.negb_odd, HN; reflexivity).
  destruct (og_inv m N g Hg ltac:(lia)) as [(n & EN & En & _ & Hmn & Eg)|(n & _ & _ & Ev' & _)]; [|congruence]. set (k := n - m) in *.
  assert (EV : class_OG m N = kstrict_in k (n - k) (n + k)) by (unfold class_OG, k; rewrite Ev, En; change (kstrict_in (n - m) m (N - 1 - m) = kstrict_in (n - m) (n - (n - m)) (n + (n - m))); f_equal; lia).
  assert (G1 : graded (degree_q g) (fun i => 1 <= i <= N - 1 - m) (class_OG m N) (pieri_fun g)).
  { intros i l Hi Hl. destruct (c44_OG m N g i l Hg ltac:(lia) ltac:(lia) Hl) as (r & c & E & _ & _ & A & B). rewrite Ev in B. exists r. rewrite Z.abs_eq by lia. split; auto. }
  assert (G2 : graded (degree_q g) (fun i => 1 <= i <= N - 1 - m) (class_OG m N) (qpieri_fun g)).
  { intros i l Hi Hl. destruct (c44_qOG_odd m N g i l Hg HN Hm Hl) as (r & c & E & _ & _ & A & B). exists r. rewrite Z.abs_eq by lia. split; auto. }
  exists (muM (n + k)). rewrite EV in *. replace (N - 1 - m) with (n + k) in * by (unfold k; lia). subst g. fold (gB k n) in *.
  assert (Hok : forall qq, okB qq k n) by (intros; split; [lia|]; split; lia).
  split; cbn [g_type g_k gB].
  - apply (sysB k n false (Hok false)).
  - apply (sysB k n true (Hok true)).
  - intros i l Hi Hl. apply (q0B k n); auto; lia.
  - intros i Hi. rewrite num2spec_pos by lia. apply kstrict_row1; lia.
  - intros i Hi. rewrite num2spec_pos by lia. apply (specialB k n ltac:(lia) ltac:(lia) false); auto.
  - intros i Hi. rewrite num2spec_pos by lia. apply (specialB k n ltac:(lia) ltac:(lia) true); auto.
  - intros l p l0 Hl. apply gsel_deg_part. apply Hl.
  - exact G1.
  - exact G2.
Qed.

(** ** the statements of PropsRing.v *)
Lemma sys_IG m N g : IsotropicGrassmannian m N = Ok g -> exists mu,
  pieri_sys (g_type g) (pieri_fun g) (class_IG m N) (fun i => 1 <= i <= N - m) (g_k g) mu (giam_fuel g) /\
  pieri_sys (g_type g) (qpieri_fun g) (class_IG m N) (fun i => 1 <= i <= N - m) (g_k g) mu (giam_fuel g).
Proof.
  intros Hg. apply ig_inv in Hg. destruct Hg as (n & EN & En & Hmn & ->). set (k := n - m) in *.
  assert (EV : class_IG m N = kstrict_in k (n - k) (n + k)) by (change (class_IG m N) with (kstrict_in (N / 2 - m) m (N - m)); unfold k; rewrite En; f_equal; lia).
  exists (muM (n + k)). rewrite EV. replace (N - m) with (n + k) by (unfold k; lia).
  split; [apply (sysC k n ltac:(lia) false)|apply (sysC k n ltac:(lia) true)].
Qed.
Lemma c27_IG m N g : IsotropicGrassmannian m N = Ok g ->
  product_laws (class_IG m N) (mult g) /\ product_laws (class_IG m N) (qmult g).
Proof. intros Hg. destruct (sys_IG m N g Hg) as (mu & H1 & H2). split; [apply (sys_laws H1)|apply (sys_laws H2)]. Qed.
Lemma c27_conv_IG m N g : IsotropicGrassmannian m N = Ok g ->
  conversion_laws (class_IG m N) (mult g) (toS g) /\ conversion_laws (class_IG m N) (qmult g) (qtoS g).
Proof. intros Hg. destruct (sys_IG m N g Hg) as (mu & H1 & H2). split; [apply (sys_conv H1)|apply (sys_conv H2)]. Qed.
Lemma c27_giam_IG m N g : IsotropicGrassmannian m N = Ok g ->
  giambelli_laws (class_IG m N) (special_upto (N - m)) (giambelli g) (act g) /\
  giambelli_laws (class_IG m N) (special_upto (N - m)) (qgiambelli g) (qact g).
Proof.
  intros Hg. destruct (sys_IG m N g Hg) as (mu & H1 & H2).
  assert (HX : forall i, 1 <= i <= N - m -> special_upto (N - m) (num2spec i)) by (intros i Hi; rewrite num2spec_pos by lia; exists i; auto).
  split; [apply (sys_giambelli H1 _ HX)|apply (sys_giambelli H2 _ HX)].
Qed.
Lemma c27_comm_IG m N g : IsotropicGrassmannian m N = Ok g ->
  operators_commute (class_IG m N) (fun i => 1 <= i <= N - m) (pieri g) /\
  operators_commute (class_IG m N) (fun i => 1 <= i <= N - m) (qpieri g).
Proof. intros Hg. destruct (sys_IG m N g Hg) as (mu & H1 & H2). split; [apply (sys_pi_comm H1)|apply (sys_pi_comm H2)]. Qed.
Lemma c45_IG m N g i c : IsotropicGrassmannian m N = Ok g -> 1 <= m -> 1 <= i <= N - m -> lin_comb (class_IG m N) c ->
  (exists r r', mult g (pS [i]) c = Ok r /\ pieri g i c = Ok r' /\ peq r r') /\
  (exists r r', qmult g (pS [i]) c = Ok r /\ qpieri g i c = Ok r' /\ peq r r').
Proof. intros Hg Hm Hi Hc. destruct (rd_IG m N g Hg Hm) as (mu & D). rewrite <- (num2spec_pos i) by lia. apply (rd_special D); auto. Qed.
Lemma c46_IG m N g lam nu : IsotropicGrassmannian m N = Ok g -> 1 <= m -> class_IG m N lam -> class_IG m N nu ->
  (exists r, mult g (pS lam) (pS nu) = Ok r /\ homogeneous (degree_q g) (size lam + size nu) r /\ integral r) /\
  (exists r, qmult g (pS lam) (pS nu) = Ok r /\ homogeneous (degree_q g) (size lam + size nu) r /\ integral r).
Proof. intros Hg Hm Hl Hn. destruct (rd_IG m N g Hg Hm) as (mu & D). apply (rd_homog D); auto. Qed.
Lemma c47_IG m N g : IsotropicGrassmannian m N = Ok g -> 1 <= m ->
  (forall a b, lin_comb0 (class_IG m N) a -> lin_comb0 (class_IG m N) b ->
     exists x r, qmult g a b = Ok x /\ mult g a b = Ok r /\ same_q_free_part x r) /\
  (forall a, poly_in (class_IG m N) a -> (forall mo, In VQ mo -> coef a mo = 0%Qc) ->
     exists x r, qtoS g a = Ok x /\ toS g a = Ok r /\ same_q_free_part x r).
Proof. intros Hg Hm. destruct (rd_IG m N g Hg Hm) as (mu & D). split; intros; [apply (rd_q0_mult D)|apply (rd_q0_toS D)]; auto. Qed.

Section Odd.
Variables (m N : Z) (g : gr).
Hypothesis Hg : OrthogonalGrassmannian m N = Ok g.
Hypothesis HN : Z.odd N = true.
Hypothesis Hm : 1 <= m <= N / 2.
Lemma c27_OGodd : product_laws (class_OG m N) (mult g) /\ product_laws (class_OG m N) (qmult g).
Proof. destruct (rd_OGodd m N g Hg HN Hm) as (mu & D). apply (rd_laws D). Qed.
Lemma c27_conv_OGodd : conversion_laws (class_OG m N) (mult g) (toS g) /\ conversion_laws (class_OG m N) (qmult g) (qtoS g).
Proof. destruct (rd_OGodd m N g Hg HN Hm) as (mu & D). apply (rd_conv D). Qed.
Lemma c27_giam_OGodd : giambelli_laws (class_OG m N) (special_upto (N - 1 - m)) (giambelli g) (act g) /\
  giambelli_laws (class_OG m N) (special_upto (N - 1 - m)) (qgiambelli g) (qact g).
Proof.
  destruct (rd_OGodd m N g Hg HN Hm) as (mu & D). apply (rd_giam D). intros i Hi. rewrite num2spec_pos by lia. exists i. auto.
Qed.
Lemma c27_comm_OGodd : operators_commute (class_OG m N) (fun i => 1 <= i <= N - 1 - m) (pieri g) /\
  operators_commute (class_OG m N) (fun i => 1 <= i <= N - 1 - m) (qpieri g).
Proof. destruct (rd_OGodd m N g Hg HN Hm) as (mu & D). apply (rd_comm D). Qed.
Lemma c45_OGodd i c : 1 <= i <= N - 1 - m -> lin_comb (class_OG m N) c ->
  (exists r r', mult g (pS [i]) c = Ok r /\ pieri g i c = Ok r' /\ peq r r') /\
  (exists r r', qmult g (pS [i]) c = Ok r /\ qpieri g i c = Ok r' /\ peq r r').
Proof. intros Hi Hc. destruct (rd_OGodd m N g Hg HN Hm) as (mu & D). rewrite <- (num2spec_pos i) by lia. apply (rd_special D); auto. Qed.
Lemma c46_OGodd lam nu : class_OG m N lam -> class_OG m N nu ->
  (exists r, mult g (pS lam) (pS nu) = Ok r /\ homogeneous (degree_q g) (size lam + size nu) r /\ integral r) /\
  (exists r, qmult g (pS lam) (pS nu) = Ok r /\ homogeneous (degree_q g) (size lam + size nu) r /\ integral r).
Proof. intros Hl Hn. destruct (rd_OGodd m N g Hg HN Hm) as (mu & D). apply (rd_homog D); auto. Qed.
Lemma c47_OGodd :
  (forall a b, lin_comb0 (class_OG m N) a -> lin_comb0 (class_OG m N) b ->
     exists x r, qmult g a b = Ok x /\ mult g a b = Ok r /\ same_q_free_part x r) /\
  (forall a, poly_in (class_OG m N) a -> (forall mo, In VQ mo -> coef a mo = 0%Qc) ->
     exists x r, qtoS g a = Ok x /\ toS g a = Ok r /\ same_q_free_part x r).
Proof. destruct (rd_OGodd m N g Hg HN Hm) as (mu & D). split; intros; [apply (rd_q0_mult D)|apply (rd_q0_toS D)]; auto. Qed.
End Odd.
