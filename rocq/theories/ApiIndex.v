(** part2index, index2part and dualize of IG and OG on expressions. *)

From Coq Require Import ZArith List Lia Bool Permutation QArith Qcanon Setoid Morphisms.
From Verif Require Import Py OrderFacts ModelPart ModelQcalc ModelPoly ModelStr ModelGr Spec
  PolyFacts SuppFacts PyFacts PartFacts ConjFacts PairFacts IndexC IndexB IndexD DualFacts
  Conv Schub GrInv ApiConvA ApiPair.
Import ListNotations.
Open Scope Z_scope.

Definition to_idx (g : gr) : list Z -> res (list Z) := fun l =>
  match g_type g with
  | TA => part2indexA_inner | TB => part2indexB_inner
  | TC => part2indexC_inner | TD => part2indexD_inner end l (g_k g) (g_n g).
Definition of_idx (g : gr) : list Z -> res (list Z) := fun l =>
  match g_type g with
  | TA => index2partA_inner | TB => index2partB_inner
  | TC => index2partC_inner | TD => index2partD_inner end l (g_k g) (g_n g).

Section Gen.
Variables (g : gr) (V W : list Z -> Prop) (ix px dx : list Z -> list Z).
Hypothesis H1 : forall l, V l -> to_idx g l = Ok (ix l) /\ W (ix l).
Hypothesis H2 : forall p, W p -> of_idx g p = Ok (px p) /\ V (px p).
Hypothesis R1 : forall l, V l -> px (ix l) = l.
Hypothesis R2 : forall p, W p -> ix (px p) = p.
Hypothesis NV : forall l, V l -> nonneg l.
Hypothesis NW : forall p, W p -> nonneg p.
Hypothesis D1 : forall p, W p -> dualize_index_inner p (ambient_N g) (g_type g) = dx p /\ W (dx p).
Hypothesis D2 : forall p, W p -> dx (dx p) = p.

Lemma g_p2i s : on_list V s ->
  on_part (fun lam => a <- to_idx g lam ;; ret_schur (SP a)) s = Ok (pvar (VS (hl ix s))) /\ on_list W (hl ix s).
Proof. apply (on_part_conv (to_idx g)); auto. Qed.
Lemma g_i2p s : on_list W s ->
  on_part (fun lam => a <- of_idx g lam ;; ret_schur (SP a)) s = Ok (pvar (VS (hl px s))) /\ on_list V (hl px s).
Proof. apply (on_part_conv (of_idx g)); auto. Qed.
Lemma g_dx s : on_list W s ->
  on_part (fun idx => ret_schur (SP (dualize_index_inner idx (ambient_N g) (g_type g)))) s = Ok (pvar (VS (hl dx s))) /\ on_list W (hl dx s).
Proof.
  destruct s as [l|]; [|contradiction]. simpl. intros Hs. destruct (D1 l Hs) as [E HW]. rewrite E.
  rewrite ret_nonneg by auto. auto.
Qed.

Lemma g_inverse : mutually_inverse (on_list V) (on_list W) (part2index g) (index2part g).
Proof.
  split; intros p Hp.
  - destruct (conv_inverse _ _ _ _ _ _ p g_p2i g_i2p) as (x & r & E1 & W1 & E2 & _ & P2); auto.
    { intros [l|] Hs; [|contradiction]. simpl. f_equal. apply R1; auto. }
    exists x, r. auto.
  - destruct (conv_inverse _ _ _ _ _ _ p g_i2p g_p2i) as (x & r & E1 & W1 & E2 & _ & P2); auto.
    { intros [l|] Hs; [|contradiction]. simpl. f_equal. apply R2; auto. }
    exists x, r. auto.
Qed.
Lemma g_class l : V l -> exists x, part2index g (pS l) = Ok x /\ peq x (pS (ix l)) /\ W (ix l).
Proof.
  intros Hl. destruct (conv_ok _ _ _ _ (pS l) g_p2i (expr_in_pS (on_list V) (SP l) Hl)) as (x & E & Px & _).
  exists x. split; [exact E|]. split; [rewrite Px; apply pvar_pS_peq|]. apply H1; auto.
Qed.

Definition dz (l : list Z) : list Z := px (dx (ix l)).
Lemma g_dualize p : expr_in (on_list V) p ->
  exists x, dualize g p = Ok x /\ peq x (psubst (ren (hl dz)) p) /\ expr_in (on_list V) x.
Proof.
  intros Hp. destruct (conv_ok _ _ _ _ p g_p2i Hp) as (a & Ea & Pa & Va).
  destruct (conv_ok _ _ _ _ a g_dx Va) as (b & Eb & Pb & Vb).
  destruct (conv_ok _ _ _ _ b g_i2p Vb) as (c & Ec & Pc & Vc).
  exists c. split; [|split; auto].
  - change (part2index g p = Ok a) in Ea. change (index2part g b = Ok c) in Ec. unfold dualize.
    rewrite Ea. cbn [bind]. rewrite Eb. cbn [bind]. exact Ec.
  - rewrite Pc, Pb, Pa. rewrite (ren_comp (hl ix) (hl dx) p). rewrite ren_comp.
    apply (ren_ext (on_list V)); auto. intros [l|] Hs; [|contradiction]. reflexivity.
Qed.
Lemma g_dual_class l : V l -> exists r, dualize g (pS l) = Ok r /\ peq r (pS (dz l)) /\ V (dz l).
Proof.
  intros Hl. destruct (g_dualize (pS l) (expr_in_pS (on_list V) (SP l) Hl)) as (r & E & Pr & _).
  exists r. split; [exact E|]. split; [rewrite Pr; apply pvar_pS_peq|]. apply H2, D1, H1; auto.
Qed.
Lemma dz_dz l : V l -> dz (dz l) = l.
Proof.
  intros Hl. assert (HW : W (ix l)) by (apply H1; auto). unfold dz. rewrite R2 by (apply D1; auto).
  rewrite D2 by auto. auto.
Qed.
Lemma g_involution p : expr_in (on_list V) p ->
  exists x y, dualize g p = Ok x /\ expr_in (on_list V) x /\ dualize g x = Ok y /\ peq y p.
Proof.
  intros Hp. destruct (g_dualize p Hp) as (x & E1 & P1 & V1). destruct (g_dualize x V1) as (y & E2 & P2 & V2).
  exists x, y. split; auto. split; auto. split; auto. rewrite P2, P1, ren_comp.
  apply (ren_id (on_list V)); auto. intros [l|] Hs; [|contradiction]. simpl. f_equal. apply dz_dz; auto.
Qed.
(** the index set of the point *)
Lemma g_point p0 : W p0 -> px (dx p0) = [] -> px p0 = point_class g -> dz [] = point_class g.
Proof.
  intros Hp E1 E2. unfold dz. rewrite <- E1. rewrite R2 by (apply D1; auto). rewrite D2; auto.
Qed.
End Gen.

Lemma index_nonneg m N p : index_set m N p -> nonneg p.
Proof. intros (_ & R & _). apply nonneg_part. intros j Hj. specialize (R j Hj). lia. Qed.

(** ** IG(m,2n) *)
Section IG.
Variables (n k m : Z).
Hypothesis Hk : 0 <= k.
Hypothesis Hm : 0 <= m.
Hypothesis Hn : n = m + k.
Let g := mkGr TC k n.
Let V := kstrict_in k m (n + k).
Let W := isotropic_set m (2 * n).

Lemma IG1 l : V l -> to_idx g l = Ok (idxC n k m l) /\ W (idxC n k m l).
Proof. intros Hl. split; [apply part2indexC_ok; auto|apply idxC_set; auto]. Qed.
Lemma IG2 p : W p -> of_idx g p = Ok (prtC n k m p) /\ V (prtC n k m p).
Proof. intros Hp. split; [apply index2partC_ok; auto; apply (p_len n m); auto|apply prtC_in; auto]. Qed.
Lemma IG3 l : V l -> prtC n k m (idxC n k m l) = l.
Proof. apply prtC_idxC. Qed.
Lemma IG4 p : W p -> idxC n k m (prtC n k m p) = p.
Proof. intros. apply idxC_prtC; auto. Qed.
Lemma IG5 l : V l -> nonneg l.
Proof. apply kstrict_nonneg. Qed.
Lemma IG6 p : W p -> nonneg p.
Proof. intros [H _]. eapply index_nonneg; eauto. Qed.
Lemma IG7 p : W p -> dualize_index_inner p (ambient_N g) (g_type g) = rd (2 * n) p /\ W (rd (2 * n) p).
Proof. intros H. split; [reflexivity|]. apply rd_set; auto. Qed.
Lemma IG_dz_size l : V l -> size (dz (idxC n k m) (prtC n k m) (rd (2 * n)) l) = dim_IG m (2 * n) - size l.
Proof.
  intros Hl. unfold dz. assert (HW : W (idxC n k m l)) by (apply IG1; auto).
  pose proof (size_dual n k m (idxC n k m l) HW) as E. rewrite IG3 in E by auto. unfold dim_IG.
  assert (m * (2 * n - m) = m * (2 * k + 1) + m * (m - 1)) by (subst n; ring).
  assert (m * (m - 1) / 2 + m * (m - 1) / 2 = m * (m - 1)).
  { assert (exists c, m * (m - 1) = 2 * c) as [c Ec].
    { destruct (Z.Even_or_Odd m) as [[c Hc]|[c Hc]]; [exists (c * (m - 1))|exists (m * c)]; rewrite Hc at 1; try ring. 
      replace (m - 1) with (2 * c) by lia. rewrite Hc. ring. }
    rewrite Ec. rewrite (Z.mul_comm 2), Z.div_mul by lia. lia. }
  lia.
Qed.
Lemma IG_point : dz (idxC n k m) (prtC n k m) (rd (2 * n)) [] = point_class g.
Proof.
  apply (g_point g W _ _ _ IG4 IG7 (fun p _ => rd_rd (2 * n) p) (first_set m)).
  - apply (first_iso n k m); auto.
  - apply prtC_first_rd; auto.
  - rewrite prtC_first_list by auto. unfold point_class, g. cbn [g_type g_k g_n]. f_equal. f_equal. lia.
Qed.
End IG.

(** ** OG(m,2n+1) *)
Section OB.
Variables (n k m : Z).
Hypothesis Hk : 0 <= k.
Hypothesis Hm : 0 <= m.
Hypothesis Hn : n = m + k.
Let g := mkGr TB k n.
Let V := kstrict_in k m (n + k).
Let W := isotropic_set m (2 * n + 1).

Lemma OB1 l : V l -> to_idx g l = Ok (idxB n k m l) /\ W (idxB n k m l).
Proof. intros Hl. split; [apply part2indexB_ok; auto|apply idxB_set; auto]. Qed.
Lemma OB2 p : W p -> of_idx g p = Ok (prtB n k m p) /\ V (prtB n k m p).
Proof. intros Hp. split; [apply index2partB_ok; auto|apply prtB_in; auto]. Qed.
Lemma OB3 l : V l -> prtB n k m (idxB n k m l) = l.
Proof. intros. apply prtB_idxB; auto. Qed.
Lemma OB4 p : W p -> idxB n k m (prtB n k m p) = p.
Proof. intros. apply idxB_prtB; auto. Qed.
Lemma OB6 p : W p -> nonneg p.
Proof. intros [H _]. eapply index_nonneg; eauto. Qed.
Lemma OB7 p : W p -> dualize_index_inner p (ambient_N g) (g_type g) = rd (2 * n + 1) p /\ W (rd (2 * n + 1) p).
Proof. intros H. split; [reflexivity|]. apply rd_set; auto. Qed.
Lemma shift_rd p : rd (2 * n + 1) (map (shift n) p) = map (shift n) (rd (2 * n) p).
Proof.
  unfold rd. rewrite <- map_rev, !map_map. apply map_ext. intros x. unfold shift.
  destruct (x <=? n) eqn:E1, (2 * n + 1 - x <=? n) eqn:E2; lia.
Qed.
Lemma OB_dz l : dz (idxB n k m) (prtB n k m) (rd (2 * n + 1)) l = dz (idxC n k m) (prtC n k m) (rd (2 * n)) l.
Proof. unfold dz, idxB, prtB. rewrite shift_rd, unshift_shift. auto. Qed.
Lemma dim_OB : dim_OG m (2 * n + 1) = dim_IG m (2 * n).
Proof.
  unfold dim_OG, dim_IG. replace (m * (m + 1)) with (m * (m - 1) + m * 2) by ring. rewrite Z.div_add by lia. ring.
Qed.
End OB.

(** ** OG(m,2n+2) *)
Section OD.
Variables (n k m : Z).
Hypothesis Hk : 0 <= k.
Hypothesis Hm : 0 <= m.
Hypothesis Hn : n + 1 = m + k.
Hypothesis Hn0 : 0 <= n.
Let g := mkGr TD k n.
Let V := typed_in k m (n + k).
Let W := isotropic_set_OG m (2 * n + 2).

Lemma OD1 l : V l -> to_idx g l = Ok (idxD n k m l) /\ W (idxD n k m l).
Proof. intros Hl. split; [apply part2indexD_ok; auto|apply idxD_set; auto]. Qed.
Lemma OD2 p : W p -> of_idx g p = Ok (prtD n k m p) /\ V (prtD n k m p).
Proof. intros Hp. split; [apply index2partD_ok; auto|apply prtD_in; auto]. Qed.
Lemma OD3 l : V l -> prtD n k m (idxD n k m l) = l.
Proof. intros. apply prtD_idxD; auto. Qed.
Lemma OD4 p : W p -> idxD n k m (prtD n k m p) = p.
Proof. intros. apply idxD_prtD; auto. Qed.
Lemma OD5 l : V l -> nonneg l.
Proof. apply typed_nonneg. Qed.
Lemma OD6 p : W p -> nonneg p.
Proof. intros [[H _] _]. eapply index_nonneg; eauto. Qed.
Lemma OD7 p : W p -> dualize_index_inner p (ambient_N g) (g_type g) = rdD n p /\ W (rdD n p).
Proof.
  intros H. split; [|apply (rdD_set n k m); auto]. unfold dualize_index_inner, rdD, rd, sw, g.
  cbn [g_type is_D ambient_N g_n andb]. 
  assert (E : ((2 * n + 2) mod 4 =? 2) = Z.odd (n + 1)).
  { rewrite Z.odd_add. cbn [Z.odd].
    destruct (Z.Even_or_Odd n) as [[c Hc]|[c Hc]].
    - replace (2 * n + 2) with (2 + c * 4) by lia. rewrite Z.mod_add by lia.
      replace (Z.odd n) with false; [reflexivity|]. rewrite Hc, Z.odd_mul. reflexivity.
    - replace (2 * n + 2) with (0 + (c + 1) * 4) by lia. rewrite Z.mod_add by lia.
      replace (Z.odd n) with true; [reflexivity|]. rewrite Hc, Z.odd_add, Z.odd_mul. reflexivity. }
  rewrite E. destruct (Z.odd (n + 1)); auto. apply map_ext. intros x. unfold swf.
  assert ((2 * n + 2) / 2 = n + 1) as -> by (replace (2 * n + 2) with ((n + 1) * 2) by lia; apply Z.div_mul; lia).
  replace (n + 1 + 1) with (n + 2) by lia. auto.
Qed.
Lemma OD_dz_size l : V l -> size (dz (idxD n k m) (prtD n k m) (rdD n) l) = dim_OG m (2 * n + 2) - size l.
Proof.
  intros Hl. unfold dz. assert (HW : W (idxD n k m l)) by (apply OD1; auto).
  pose proof (size_dualD n k m Hk Hm Hn Hn0 (idxD n k m l) HW) as E. rewrite OD3 in E by auto. unfold dim_OG.
  replace (m * (m + 1)) with (m * (m - 1) + m * 2) by ring. rewrite Z.div_add by lia.
  assert (m * (2 * n + 2 - m) = m * (2 * k) + m * m) by (replace n with (m + k - 1) by lia; ring).
  assert (m * (m - 1) / 2 + m * (m - 1) / 2 = m * (m - 1)).
  { assert (exists c, m * (m - 1) = 2 * c) as [c Ec].
    { destruct (Z.Even_or_Odd m) as [[c Hc]|[c Hc]]; [exists (c * (m - 1))|exists (m * c)]; rewrite Hc at 1; try ring. 
      replace (m - 1) with (2 * c) by lia. rewrite Hc. ring. }
    rewrite Ec. rewrite (Z.mul_comm 2), Z.div_mul by lia. lia. }
  lia.
Qed.
Lemma OD_point : dz (idxD n k m) (prtD n k m) (rdD n) [] = point_class g.
Proof.
  apply (g_point g W _ _ _ OD4 OD7 (fun p _ => rdD_rdD n p) (first_set m)).
  - apply (firstD n k m); auto.
  - apply prtD_first_rd; auto.
  - apply prtD_first; auto.
Qed.
End OD.

(** ** C16 *)
Lemma c16_IG m N g : IsotropicGrassmannian m N = Ok g ->
  mutually_inverse (on_list (class_IG m N)) (on_list (isotropic_set m N)) (part2index g) (index2part g).
Proof.
  intros Hg. apply ig_inv in Hg. destruct Hg as (n & EN & En & Hm & ->). unfold class_IG. rewrite En.
  replace (N - m) with (n + (n - m)) by lia. rewrite EN.
  apply (g_inverse _ _ _ (idxC n (n - m) m) (prtC n (n - m) m)).
  - intros. apply IG1; auto; lia.
  - intros. apply IG2; auto; lia.
  - intros. apply (IG3 n); auto.
  - intros. apply IG4; auto; lia.
  - apply IG5.
  - apply IG6.
Qed.
Lemma c16_OG m N g : OrthogonalGrassmannian m N = Ok g -> m <= N / 2 -> 1 <= N ->
  mutually_inverse (on_list (class_OG m N)) (on_list (isotropic_set_OG m N)) (part2index g) (index2part g).
Proof.
  intros Hg Hm HN. unfold class_OG.
  destruct (og_inv m N g Hg Hm) as [(n & EN & En & Ev & Hm' & ->)|(n & EN & En & Ev & Hm' & ->)]; rewrite Ev, En.
  - replace (N - 1 - m) with (n + (n - m)) by lia. rewrite EN.
    assert (HW : forall p, isotropic_set_OG m (2 * n + 1) p <-> isotropic_set m (2 * n + 1) p).
    { intros p. unfold isotropic_set_OG. split; [tauto|]. split; auto. lia. }
    apply (g_inverse _ _ _ (idxB n (n - m) m) (prtB n (n - m) m)); intros x; rewrite ?HW.
    + intros. apply OB1; auto; lia.
    + intros. apply OB2; auto; lia.
    + intros. apply OB3; auto; lia.
    + intros. apply OB4; auto; lia.
    + apply IG5.
    + apply OB6.
  - replace (N - 1 - m) with (n + (n + 1 - m)) by lia. rewrite EN.
    apply (g_inverse _ _ _ (idxD n (n + 1 - m) m) (prtD n (n + 1 - m) m)).
    + intros. apply OD1; auto; lia.
    + intros. apply OD2; auto; lia.
    + intros. apply OD3; auto; lia.
    + intros. apply OD4; auto; lia.
    + apply OD5.
    + apply OD6.
Qed.

(** ** C17 *)
Lemma c17_IG_inv m N g p : IsotropicGrassmannian m N = Ok g -> expr_in (on_list (class_IG m N)) p ->
  exists x y, dualize g p = Ok x /\ expr_in (on_list (class_IG m N)) x /\ dualize g x = Ok y /\ peq y p.
Proof.
  intros Hg. apply ig_inv in Hg. destruct Hg as (n & EN & En & Hm & ->). unfold class_IG. rewrite En.
  replace (N - m) with (n + (n - m)) by lia.
  apply (g_involution _ _ (isotropic_set m (2 * n)) (idxC n (n - m) m) (prtC n (n - m) m) (rd (2 * n))).
  - intros. apply IG1; auto; lia.
  - intros. apply IG2; auto; lia.
  - intros. apply (IG3 n); auto.
  - intros. apply IG4; auto; lia.
  - apply IG5.
  - apply IG6.
  - intros. apply IG7; auto.
  - intros. apply rd_rd.
Qed.
Lemma c17_IG_class m N g lam : IsotropicGrassmannian m N = Ok g -> class_IG m N lam ->
  exists mu r, dualize g (pS lam) = Ok r /\ peq r (pS mu) /\ class_IG m N mu /\ size mu = dim_IG m N - size lam.
Proof.
  intros Hg. apply ig_inv in Hg. destruct Hg as (n & EN & En & Hm & ->). unfold class_IG. rewrite En.
  replace (N - m) with (n + (n - m)) by lia. rewrite EN. intros Hl.
  destruct (g_dual_class (mkGr TC (n - m) n) (kstrict_in (n - m) m (n + (n - m))) (isotropic_set m (2 * n))
    (idxC n (n - m) m) (prtC n (n - m) m) (rd (2 * n))) with (l := lam) as (r & E & Pr & HV); auto.
  - intros. apply IG1; auto; lia.
  - intros. apply IG2; auto; lia.
  - apply IG5.
  - apply IG6.
  - intros. apply IG7; auto.
  - eexists _, r. split; [exact E|]. split; [exact Pr|]. split; auto. apply IG_dz_size; auto; lia.
Qed.
Lemma c17_IG_point m N g : IsotropicGrassmannian m N = Ok g ->
  exists r, dualize g (pS []) = Ok r /\ peq r (pS (point_class g)).
Proof.
  intros Hg. apply ig_inv in Hg. destruct Hg as (n & EN & En & Hm & ->).
  destruct (g_dual_class (mkGr TC (n - m) n) (kstrict_in (n - m) m (n + (n - m))) (isotropic_set m (2 * n))
    (idxC n (n - m) m) (prtC n (n - m) m) (rd (2 * n))) with (l := @nil Z) as (r & E & Pr & HV); auto.
  - intros. apply IG1; auto; lia.
  - intros. apply IG2; auto; lia.
  - apply IG5.
  - apply IG6.
  - intros. apply IG7; auto.
  - split; [apply in_box_nil; lia|]. intros j. rewrite !part_nil. lia.
  - exists r. split; [exact E|]. rewrite Pr, IG_point by (auto; lia). reflexivity.
Qed.

Lemma OG_gen (Q : gr -> (list Z -> Prop) -> Prop) m N g : OrthogonalGrassmannian m N = Ok g -> m <= N / 2 -> 1 <= N ->
  (forall n k, 0 <= k -> 0 <= m -> n = m + k -> N = 2 * n + 1 -> Q (mkGr TB k n) (kstrict_in k m (n + k))) ->
  (forall n k, 0 <= k -> 0 <= m -> n + 1 = m + k -> 0 <= n -> N = 2 * n + 2 -> Q (mkGr TD k n) (typed_in k m (n + k))) ->
  Q g (class_OG m N).
Proof.
  intros Hg Hm HN HB HD. unfold class_OG.
  destruct (og_inv m N g Hg Hm) as [(n & EN & En & Ev & Hm' & ->)|(n & EN & En & Ev & Hm' & ->)]; rewrite Ev, En.
  - replace (N - 1 - m) with (n + (n - m)) by lia. apply HB; lia.
  - replace (N - 1 - m) with (n + (n + 1 - m)) by lia. apply HD; lia.
Qed.

Lemma c17_OG_inv m N g : OrthogonalGrassmannian m N = Ok g -> m <= N / 2 -> 1 <= N ->
  forall p, expr_in (on_list (class_OG m N)) p ->
  exists x y, dualize g p = Ok x /\ expr_in (on_list (class_OG m N)) x /\ dualize g x = Ok y /\ peq y p.
Proof.
  intros Hg Hm HN. apply (OG_gen (fun g V => forall p, expr_in (on_list V) p ->
    exists x y, dualize g p = Ok x /\ expr_in (on_list V) x /\ dualize g x = Ok y /\ peq y p) m N g Hg Hm HN).
  - intros n k Hk Hm' Hn EN.
    apply (g_involution _ _ (isotropic_set m (2 * n + 1)) (idxB n k m) (prtB n k m) (rd (2 * n + 1))); intros.
    + apply OB1; auto.
    + apply OB2; auto.
    + apply OB3; auto.
    + apply OB4; auto.
    + eapply IG5; eauto.
    + eapply OB6; eauto.
    + apply OB7; auto.
    + apply rd_rd.
  - intros n k Hk Hm' Hn Hn0 EN.
    apply (g_involution _ _ (isotropic_set_OG m (2 * n + 2)) (idxD n k m) (prtD n k m) (rdD n)); intros.
    + apply OD1; auto.
    + apply OD2; auto.
    + apply OD3; auto.
    + apply OD4; auto.
    + eapply OD5; eauto.
    + eapply OD6; eauto.
    + apply (OD7 n k m); auto.
    + apply rdD_rdD.
Qed.
Lemma OG_dual m N g : OrthogonalGrassmannian m N = Ok g -> m <= N / 2 -> 1 <= N ->
  (forall lam, class_OG m N lam ->
    exists mu r, dualize g (pS lam) = Ok r /\ peq r (pS mu) /\ class_OG m N mu /\ size mu = dim_OG m N - size lam) /\
  (exists r, dualize g (pS []) = Ok r /\ peq r (pS (point_class g))).
Proof.
  intros Hg Hm HN. apply (OG_gen (fun g V => (forall lam, V lam ->
    exists mu r, dualize g (pS lam) = Ok r /\ peq r (pS mu) /\ V mu /\ size mu = dim_OG m N - size lam) /\
    (exists r, dualize g (pS []) = Ok r /\ peq r (pS (point_class g)))) m N g Hg Hm HN).
  - intros n k Hk Hm' Hn EN.
    assert (G : forall lam, kstrict_in k m (n + k) lam -> exists r, dualize (mkGr TB k n) (pS lam) = Ok r /\
      peq r (pS (dz (idxB n k m) (prtB n k m) (rd (2 * n + 1)) lam)) /\
      kstrict_in k m (n + k) (dz (idxB n k m) (prtB n k m) (rd (2 * n + 1)) lam)).
    { apply (g_dual_class (mkGr TB k n) _ (isotropic_set m (2 * n + 1)) (idxB n k m) (prtB n k m) (rd (2 * n + 1))); intros.
      + apply OB1; auto.
      + apply OB2; auto.
      + eapply IG5; eauto.
      + eapply OB6; eauto.
      + apply OB7; auto. }
    split.
    + intros lam Hl. destruct (G lam Hl) as (r & E & Pr & HV). eexists _, r. split; [exact E|]. split; [exact Pr|]. split; auto.
      rewrite OB_dz, EN, dim_OB. apply IG_dz_size; auto.
    + destruct (G []) as (r & E & Pr & HV).
      { split; [apply in_box_nil; lia|]. intros j. rewrite !part_nil. lia. }
      exists r. split; [exact E|]. rewrite Pr, OB_dz, IG_point by auto. reflexivity.
  - intros n k Hk Hm' Hn Hn0 EN.
    assert (G : forall lam, typed_in k m (n + k) lam -> exists r, dualize (mkGr TD k n) (pS lam) = Ok r /\
      peq r (pS (dz (idxD n k m) (prtD n k m) (rdD n) lam)) /\
      typed_in k m (n + k) (dz (idxD n k m) (prtD n k m) (rdD n) lam)).
    { apply (g_dual_class (mkGr TD k n) _ (isotropic_set_OG m (2 * n + 2)) (idxD n k m) (prtD n k m) (rdD n)); intros.
      + apply OD1; auto.
      + apply OD2; auto.
      + eapply OD5; eauto.
      + eapply OD6; eauto.
      + apply (OD7 n k m); auto. }
    split.
    + intros lam Hl. destruct (G lam Hl) as (r & E & Pr & HV). eexists _, r. split; [exact E|]. split; [exact Pr|]. split; auto.
      rewrite EN. apply OD_dz_size; auto.
    + destruct (G []) as (r & E & Pr & HV).
      { left. split; [apply in_box_nil; lia|]. intros j. rewrite !part_nil. lia. }
      exists r. split; [exact E|]. rewrite Pr, OD_point by auto. reflexivity.
Qed.
(** *** the index set of a class *)
Lemma crossings_cnt N p j : crossings N p j = cnt (fun i => N + 1 <? part p i + part p j) j.
Proof.
  unfold crossings. generalize (fun i => N + 1 <? part p i + part p j). intros f.
  induction j as [|j IH]; [reflexivity|]. rewrite seq_S, filter_app, app_length, Nat2Z.inj_add, IH.
  cbn [cnt filter Nat.add]. destruct (f j); cbn [length]; lia.
Qed.
Lemma jumpsC n k m p : 0 <= k -> 0 <= m -> n = m + k -> isotropic_set m (2 * n) p ->
  jumps_IG m (2 * n) (prtC n k m p) p.
Proof.
  intros Hk Hm Hn Hp j Hj. rewrite part_prtC by lia. rewrite crossings_cnt. unfold dC, QC. lia.
Qed.
Lemma jumpsB n k m p : 0 <= k -> 0 <= m -> n = m + k -> isotropic_set m (2 * n + 1) p ->
  jumps_OG m (2 * n + 1) (prtB n k m p) p.
Proof.
  intros Hk Hm Hn Hp j Hj. unfold prtB. rewrite part_prtC by lia.
  assert (L : length p = Z.to_nat m).
  { destruct Hp as [(E & _) _]. lia. }
  rewrite crossings_cnt. unfold dC, QC.
  assert (NE : forall i, (i < Z.to_nat m)%nat -> part p i <> n + 1).
  { intros i Hi E. destruct Hp as [_ Hp]. apply (Hp i i); lia. }
  replace ((2 * n + 1 + 1) / 2) with (n + 1) by (replace (2 * n + 1 + 1) with ((n + 1) * 2) by lia; rewrite Z.div_mul; lia).
  rewrite (cnt_ext _ (fun i => 2 * n + 1 + 1 <? part p i + part p j)).
  - rewrite part_map_in by lia. unfold unshift. specialize (NE j ltac:(lia)).
    destruct (part p j <=? n) eqn:E1, (n + 1 <? part p j) eqn:E2; lia.
  - intros i Hi. rewrite !part_map_in by lia. pose proof (NE j ltac:(lia)). pose proof (NE i ltac:(lia)).
    assert (HN := Hp). destruct HN as [_ HN]. specialize (HN i j ltac:(lia) ltac:(lia)).
    unfold unshift. destruct (part p i <=? n) eqn:E1, (part p j <=? n) eqn:E2; lia.
Qed.
Lemma jumpsD n k m p : 0 <= k -> 0 <= m -> n + 1 = m + k -> isotropic_set m (2 * n + 2) p ->
  jumps_OG m (2 * n + 2) (prtD n k m p) p.
Proof.
  intros Hk Hm Hn Hp0 j Hj. assert (Hp : iso_set (n + 1) m p) by (unfold iso_set; replace (2 * (n + 1)) with (2 * n + 2) by lia; auto).
  assert (E : part (prtD n k m p) j = part (dnl k m (prtC (n + 1) k m p)) j).
  { unfold prtD, dnD. destruct (_ && _); auto. apply part_snoc0. }
  rewrite E, part_dnl by lia. unfold prtC at 2. rewrite part_clip_part.
  pose proof (pre_small (n + 1) k m p Hp j ltac:(lia)) as S.
  rewrite part_prtC by lia. rewrite crossings_cnt. unfold dC, QC.
  replace ((2 * n + 2 + 1) / 2) with (n + 1) by (replace (2 * n + 2 + 1) with (1 + (n + 1) * 2) by lia; rewrite Z.div_add by lia; reflexivity).
  rewrite (cnt_ext (fun i => 2 * (n + 1) + 1 <? part p i + part p j) (fun i => 2 * n + 2 + 1 <? part p i + part p j)) by (intros; f_equal; lia).
  destruct (k <? part (preC (n + 1) k m p) j) eqn:E1, (n + 1 <? part p j) eqn:E2; rewrite ?Z.ltb_lt, ?Z.ltb_ge in *; lia.
Qed.
Lemma c16_class_IG m N g lam : IsotropicGrassmannian m N = Ok g -> class_IG m N lam ->
  exists idx x, part2index g (pS lam) = Ok x /\ peq x (pS idx) /\ isotropic_set m N idx /\ jumps_IG m N lam idx.
Proof.
  intros Hg. apply ig_inv in Hg. destruct Hg as (n & EN & En & Hm & ->). unfold class_IG. rewrite En.
  replace (N - m) with (n + (n - m)) by lia. rewrite EN. intros Hl.
  destruct (g_class (mkGr TC (n - m) n) (kstrict_in (n - m) m (n + (n - m))) (isotropic_set m (2 * n))
    (idxC n (n - m) m)) with (l := lam) as (r & E & Pr & HV); auto.
  - intros. apply IG1; auto; lia.
  - apply IG6.
  - eexists _, r. split; [exact E|]. split; [exact Pr|]. split; auto.
    rewrite <- (IG3 n (n - m) m lam Hl) at 1. apply jumpsC; auto; lia.
Qed.
Lemma c16_class_OG m N g : OrthogonalGrassmannian m N = Ok g -> m <= N / 2 -> 1 <= N ->
  forall lam, class_OG m N lam ->
  exists idx x, part2index g (pS lam) = Ok x /\ peq x (pS idx) /\ isotropic_set_OG m N idx /\ jumps_OG m N lam idx.
Proof.
  intros Hg Hm HN. apply (OG_gen (fun g V => forall lam, V lam ->
    exists idx x, part2index g (pS lam) = Ok x /\ peq x (pS idx) /\ isotropic_set_OG m N idx /\ jumps_OG m N lam idx) m N g Hg Hm HN).
  - intros n k Hk Hm' Hn EN lam Hl.
    destruct (g_class (mkGr TB k n) (kstrict_in k m (n + k)) (isotropic_set m (2 * n + 1))
      (idxB n k m)) with (l := lam) as (r & E & Pr & HV); auto.
    + intros. apply OB1; auto.
    + apply OB6.
    + eexists _, r. split; [exact E|]. split; [exact Pr|]. rewrite EN. split; [split; auto; lia|].
      rewrite <- (OB3 n k m lam Hl) at 1. apply jumpsB; auto.
  - intros n k Hk Hm' Hn Hn0 EN lam Hl.
    destruct (g_class (mkGr TD k n) (typed_in k m (n + k)) (isotropic_set_OG m (2 * n + 2))
      (idxD n k m)) with (l := lam) as (r & E & Pr & HV); auto.
    + intros. apply OD1; auto.
    + apply OD6.
    + eexists _, r. split; [exact E|]. split; [exact Pr|]. rewrite EN. split; auto.
      rewrite <- (OD3 n k m Hk Hm' Hn Hn0 lam Hl) at 1. apply jumpsD; auto. apply HV.
Qed.
