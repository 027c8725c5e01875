(** Kostka numbers: products of special classes of Gr(m,n). *)

From Coq Require Import ZArith List Lia Bool Permutation QArith Qcanon Setoid Morphisms.
From Verif Require Import Py OrderFacts PyFacts ModelPart ModelQcalc ModelPoly ModelStr ModelGr ModelMisc Spec SpecMisc SpecProd
  PolyFacts SuppFacts OpTheory Enum FillFacts PartFacts PieriA QPieriA CylA Sys Sys2 SysApi RingA FactsA GrInv ApiA LRTab Kostka ApiMisc CoefSys LRMult.
Import ListNotations.
Open Scope Z_scope.

Lemma pprod_perm a b : Permutation a b -> peq (pprod a) (pprod b).
Proof.
  induction 1; cbn [pprod fold_right]; [reflexivity| | |].
  - fold (pprod l) (pprod l'). rewrite IHPermutation. reflexivity.
  - fold (pprod l). ring.
  - etransitivity; eauto.
Qed.

Section K.
Variables m k : Z.
Hypothesis Hm : 1 <= m.
Hypothesis Hk : 0 <= k.
Notation V := (in_box m k).
Notation MA := (M TA (piA m k false) k (giam_fuel (gA m k))).
Notation SYS := (sysA m k Hm Hk false).

Lemma row_box i : 1 <= i <= k -> V [i].
Proof.
  intros Hi. split; [|split; [simpl; lia|unfold part; simpl; lia]]. split.
  - intros [|j] Hj; unfold part; simpl in *; lia.
  - intros [|[|j]]; unfold part; simpl; lia.
Qed.
Lemma special_poly_in c : (forall i, In i c -> 1 <= i <= k) -> poly_in V (special_product c).
Proof.
  induction c as [|i c IH]; intros Hc; cbn [special_product map pprod fold_right].
  - intros mo Hmo. destruct mo; [constructor|]. exfalso. apply Hmo. unfold pone, pconst, coef. cbn [fold_right].
    destruct (mono_eqb [] (v :: mo)) eqn:E; [|reflexivity]. apply mono_eqb_perm, Permutation_length in E. discriminate.
  - apply poly_in_pmul; [|apply IH; intros; apply Hc; simpl; auto]. apply (lin_comb_poly_in), lin_comb_pS, row_box. apply Hc. simpl; auto.
Qed.

Lemma one_one : peq (MA pone (pS [])) (pS []).
Proof.
  unfold M. transitivity (OpN TA (piA m k false) pone (pS [])).
  - apply OpN_peq; [|reflexivity]. apply psubst_pone.
  - pose proof (sys_lq_one SYS) as Hl. destruct SYS. eapply (OpN_pone TA (piA m k false) V (IA k) (eq VQ) eqVQ_isqv); eassumption.
Qed.

Lemma kostka_sum c : (forall i, In i c -> 1 <= i <= k) ->
  peq (MA (special_product c) (pS [])) (msum (map (fun x => [vS (part_clip (fst x))]) (Ts m k c))).
Proof.
  induction c as [|i c IH]; intros Hc.
  - cbn [special_product map pprod fold_right Ts fst]. rewrite one_one. 
    replace (part_clip (repeat 0 (Z.to_nat m))) with (@nil Z); [reflexivity|]. symmetry. apply part_clip_repz.
  - assert (Hc' : forall j, In j c -> 1 <= j <= k) by (intros; apply Hc; simpl; auto).
    assert (Hi : 1 <= i <= k) by (apply Hc; simpl; auto). specialize (IH Hc').
    cbn [special_product map pprod fold_right]. fold (pprod (map (fun i => pS [i]) c)). fold (special_product c).
    assert (Hl1 : supp (linm V (eq VQ)) (pS [])) by (apply (sys_lq_one SYS)).
    assert (Hv : supp (polym V) (special_product c)) by (apply poly_in_iff, special_poly_in; auto).
    rewrite (sys_pmul SYS); auto; [|apply sys_lq_vp, sys_lq_pS, row_box; auto].
    rewrite (sys_pieri SYS i [i]); auto using row_box; [|apply special_P; auto|apply (sys_lin SYS); auto].
    transitivity (ext (piA m k false) i (msum (map qterm (map (fun x => (0%nat, fst x)) (Ts m k c))))).
    + rewrite IH. rewrite map_map. reflexivity.
    + rewrite ext_terms; auto; [|apply IA_dom; auto|].
      * cbn [Ts]. rewrite !flat_map_concat_map, map_map, !concat_map, !map_map. match goal with |- peq ?a ?b => assert (Eab : a = b); [|rewrite Eab; reflexivity] end. f_equal. f_equal.
        apply map_ext_in. intros x Hx. cbn [fst snd]. rewrite map_map. apply map_ext_in. intros y Hy. unfold qterm. cbn [fst snd Nat.add].
        apply Ts_ssyt in Hx; auto. destruct y as [d y]. apply EA_in in Hy; auto; [|tauto]. destruct Hy as [(-> & _)|(? & _)]; [reflexivity|discriminate].
      * intros x Hx. apply in_map_iff in Hx. destruct Hx as (y & <- & Hy). apply Ts_ssyt in Hy; auto. tauto.
Qed.

(** ** dropping the empty rows *)
Lemma nth_pad (T : list (list Z)) d i : nth i (T ++ repeat [] d) [] = nth i T [].
Proof.
  destruct (Nat.lt_ge_cases i (length T)); [apply app_nth1; auto|]. rewrite app_nth2 by auto. rewrite (nth_overflow T) by auto. apply nth_repeat.
Qed.
Lemma ssyt_pad r lam T d : (d = Z.to_nat (m - zlen lam))%nat -> (ssyt r (padm m lam) (T ++ repeat [] d) <-> ssyt r lam T).
Proof.
  intros Hd. assert (Hl : length (padm m lam) = (length lam + d)%nat).
  { unfold padm. rewrite app_length. unfold repz. rewrite repeat_length. subst. reflexivity. }
  unfold ssyt, entry. rewrite app_length, repeat_length, Hl. split; intros (L & R & E & W & C).
  - split; [lia|]. split; [|split; [|split]].
    + intros i Hi. specialize (R i ltac:(lia)). rewrite nth_pad, part_padm in R. auto.
    + intros i c Hc. specialize (E i c). rewrite nth_pad in E. auto.
    + intros i c Hc. specialize (W i c). rewrite nth_pad in W. auto.
    + intros i c Hc. specialize (C i c). rewrite !nth_pad in C. auto.
  - split; [lia|]. split; [|split; [|split]].
    + intros i Hi. rewrite nth_pad, part_padm. destruct (Nat.lt_ge_cases i (length T)); [auto|]. unfold part. rewrite !nth_overflow by lia. reflexivity.
    + intros i c Hc. rewrite nth_pad in *. auto.
    + intros i c Hc. rewrite nth_pad in *. auto.
    + intros i c Hc. rewrite !nth_pad in *. auto.
Qed.
Lemma ssyt_padded r lam T : in_box m k lam -> ssyt r (padm m lam) T -> T = firstn (length lam) T ++ repeat [] (Z.to_nat (m - zlen lam)).
Proof.
  intros Hl (L & R & _). rewrite <- (firstn_skipn (length lam) T) at 1. f_equal.
  assert (Hlen : length (padm m lam) = (length lam + Z.to_nat (m - zlen lam))%nat) by (unfold padm; rewrite app_length; unfold repz; rewrite repeat_length; reflexivity).
  apply nth_ext with (d := []) (d' := []); [rewrite skipn_length, repeat_length; lia|].
  intros i Hi. rewrite skipn_length in Hi. rewrite nth_repeat.
  assert (E : nth i (skipn (length lam) T) [] = nth (length lam + i) T []).
  { clear. generalize (length lam). intros n. revert T. induction n as [|n IH]; intros T; [reflexivity|]. destruct T as [|x T]; [destruct i; reflexivity|]. cbn [skipn Nat.add nth]. apply IH. }
  rewrite E. specialize (R (length lam + i)%nat ltac:(lia)). rewrite part_padm in R.
  assert (E0 : part lam (length lam + i) = 0) by (unfold part; apply nth_overflow; lia). rewrite E0 in R.
  destruct (nth _ T []); [auto|simpl in R; lia].
Qed.
Lemma concat_pad T d : concat (T ++ repeat (@nil Z) d) = concat T.
Proof. rewrite concat_app. induction d; simpl; rewrite ?app_nil_r; auto. Qed.

Lemma coef_msum_count {A} (f : A -> list Z) l lam (p : A -> bool) : (forall x, In x l -> (p x = true <-> f x = lam)) ->
  coef (msum (map (fun x => [vS (f x)]) l)) [vS lam] = Q2Qc (inject_Z (Z.of_nat (length (filter p l)))).
Proof.
  induction l as [|x l IH]; intros H; [reflexivity|]. cbn [map]. change (msum (?a :: ?b)) with ((a, 1%Qc) :: msum b).
  match goal with |- coef (?a :: ?b) ?c = _ => change (coef (a :: b) c) with (if mono_eqb (fst a) c then (snd a + coef b c)%Qc else coef b c) end.
  cbn [fst snd]. rewrite IH by (intros; apply H; simpl; auto). clear IH.
  specialize (H x (or_introl eq_refl)). cbn [filter]. destruct (p x) eqn:Ep.
  - rewrite (proj1 H eq_refl). rewrite (proj2 (mono_eqb_perm _ _)) by reflexivity. cbn [length]. apply Qc_succ.
  - destruct (mono_eqb [vS (f x)] [vS lam]) eqn:E; [|ring]. apply mono_eqb_perm in E. apply Permutation_length_1 in E. injection E as E.
    apply H in E. discriminate.
Qed.

Lemma kostka c lam : (forall i, In i c -> 1 <= i <= k) -> in_box m k lam ->
  exists L, NoDup L /\ (forall T, In T L <-> ssyt (zlen c) lam T /\ content (zlen c) T = c) /\
    coef (MA (special_product c) (pS [])) [vS lam] = Q2Qc (inject_Z (Z.of_nat (length L))).
Proof.
  intros Hc Hl. set (tr := fun x : list Z * list (list Z) => firstn (length lam) (snd x)).
  set (p := fun x : list Z * list (list Z) => if (list_eq_dec Z.eq_dec) (fst x) (padm m lam) then true else false).
  assert (HP : forall x, p x = true <-> fst x = padm m lam) by (intros x; unfold p; destruct (list_eq_dec _ _ _); split; auto; discriminate).
  set (L0 := filter p (Ts m k (rev c))).
  assert (Hr : forall i, In i (rev c) -> 1 <= i <= k) by (intros i Hi; apply Hc, in_rev; auto).
  assert (HI : forall nu T, In (nu, T) L0 <-> nu = padm m lam /\ ssyt (zlen c) (padm m lam) T /\ vec 1 (length c) (concat T) = c).
  { intros nu T. unfold L0. rewrite filter_In, Ts_in, HP by auto. rewrite rev_length, rev_involutive. cbn [fst]. unfold zlen. split.
    - intros ((H1 & H2 & H3) & ->). auto.
    - intros (-> & H2 & H3). split; auto. split; auto. apply in_box_wbox; auto. }
  assert (HT : forall nu T, In (nu, T) L0 -> T = tr (nu, T) ++ repeat [] (Z.to_nat (m - zlen lam))).
  { intros nu T H. apply HI in H. apply (ssyt_padded (zlen c)); tauto. }
  exists (map tr L0). split; [|split].
  - apply FinFun_nodup_map; [apply NoDup_filter, Ts_nodup; auto|]. intros [nu T] [nu' T'] Hx Hy E.
    rewrite (HT nu T Hx), (HT nu' T' Hy), E. apply HI in Hx, Hy. destruct Hx as [-> _], Hy as [-> _]. reflexivity.
  - intros T. rewrite in_map_iff, content_vec by (unfold zlen; lia). unfold zlen at 2. rewrite Nat2Z.id. split.
    + intros ([nu T'] & <- & H). pose proof (HT _ _ H) as E. apply HI in H. destruct H as (-> & H1 & H2). rewrite E in H1, H2.
      rewrite ssyt_pad in H1 by auto. rewrite concat_pad in H2. auto.
    + intros (H1 & H2). set (T' := T ++ repeat [] (Z.to_nat (m - zlen lam))). exists (padm m lam, T'). split.
      * unfold tr, T'. cbn [snd]. destruct H1 as (EL & _). rewrite <- EL, firstn_app, Nat.sub_diag, firstn_all. cbn [firstn]. apply app_nil_r.
      * apply HI. split; auto. unfold T'. rewrite ssyt_pad, concat_pad; auto.
  - rewrite map_length. assert (E : peq (special_product c) (special_product (rev c))).
    { unfold special_product. apply pprod_perm, Permutation_map, Permutation_rev. }
    rewrite (M_peq TA (piA m k false) k (giam_fuel (gA m k)) _ _ _ _ E (reflexivity (pS [])) [vS lam]).
    rewrite (kostka_sum (rev c) Hr [vS lam]). apply (coef_msum_count (fun x => part_clip (fst x))).
    intros [nu T] Hx. rewrite HP. cbn [fst]. apply Ts_in in Hx; auto. destruct Hx as [Hw _]. split.
    + intros ->. apply (clip_padm m k); auto.
    + intros <-. symmetry. apply (wbox_padm_clip m k); auto.
Qed.

Lemma kostka_lin c : (forall i, In i c -> 1 <= i <= k) -> supp (fun mo => exists x, in_box m k x /\ mo = [vS x]) (MA (special_product c) (pS [])).
Proof.
  intros Hc. eapply supp_peq; [symmetry; apply kostka_sum; auto|]. intros mo Hmo.
  destruct (existsb (fun x => mono_eqb [vS (part_clip (fst x))] mo) (Ts m k c)) eqn:E.
  - apply existsb_exists in E. destruct E as (x & Hx & E). apply mono_eqb_perm, Permutation_length_1_inv in E. apply Ts_ssyt in Hx; auto.
    exists (part_clip (fst x)). split; auto. apply wbox_in_box; tauto.
  - exfalso. apply Hmo. apply coef_msum_notin. intros m' Hm' P. apply in_map_iff in Hm'. destruct Hm' as (x & <- & Hx).
    assert (E' : existsb (fun x => mono_eqb [vS (part_clip (fst x))] mo) (Ts m k c) = true); [|congruence].
    apply existsb_exists. exists x. split; auto. apply mono_eqb_perm. auto.
Qed.
End K.

Lemma c70 m n g c : Grassmannian m n = Ok g -> 1 <= m -> (forall i, In i c -> 1 <= i <= n - m) ->
  exists r, toS g (special_product c) = Ok r /\ lin_comb0 (in_box m (n - m)) r /\
    forall lam, in_box m (n - m) lam ->
      exists L, NoDup L /\ (forall T, In T L <-> ssyt (zlen c) lam T /\ content (zlen c) T = c) /\
        coef r [vS lam] = Q2Qc (inject_Z (Z.of_nat (length L))).
Proof.
  intros Hg Hm Hc. apply gr_inv in Hg. destruct Hg as (_ & Hk & ->).
  destruct (api_prod (sysA m (n - m) Hm Hk false) (special_product c) (pS [])) as (r & E & Pr & _).
  - apply special_poly_in; auto; lia.
  - apply lin_comb_pS, in_box_nil; lia.
  - exists r. split; [exact E|]. split.
    + intros mo Hmo. rewrite (Pr mo) in Hmo. apply (kostka_lin m (n - m) Hm Hk c Hc); auto.
    + intros lam Hl. destruct (kostka m (n - m) Hm Hk c lam Hc Hl) as (L & H1 & H2 & H3). exists L. split; auto. split; auto. rewrite (Pr _). exact H3.
Qed.

Lemma c70_poly m n g c lam : Grassmannian m n = Ok g -> 1 <= m -> c <> [] -> (forall i, In i c -> 1 <= i <= n - m) -> in_box m (n - m) lam ->
  exists r p, toS g (special_product c) = Ok r /\ snd (SchurPol (zlen c) lam) = Ok p /\
    coef r [vS lam] = Q2Qc (inject_Z (Z.of_nat (count_occ (list_eq_dec Z.eq_dec) p c))).
Proof.
  intros Hg Hm Hc0 Hc Hl. destruct (c70 m n g c Hg Hm Hc) as (r & E & _ & H). destruct (H lam Hl) as (L & H1 & H2 & H3).
  assert (Hn : 1 <= zlen c) by (destruct c; [congruence|unfold zlen; cbn [length]; lia]).
  destruct (c30_value (zlen c) lam 0 Hn (proj1 Hl) ltac:(lia)) as (p & Ts & E2 & N2 & I2 & P2).
  cbn [repz Z.to_nat repeat] in E2. change (repz 0 0) with (@nil Z) in E2. rewrite app_nil_r in E2.
  exists r, p. split; auto. split; auto. rewrite H3. do 3 f_equal.
  rewrite (proj1 (Permutation_count_occ (list_eq_dec Z.eq_dec) _ _) P2 c).
  set (q := fun T => if list_eq_dec Z.eq_dec (content (zlen c) T) c then true else false).
  transitivity (length (filter q Ts)).
  - apply Permutation_length, NoDup_Permutation; auto; [apply NoDup_filter; auto|]. intros T. rewrite H2, filter_In, I2. unfold q.
    destruct (list_eq_dec _ _ _); intuition congruence.
  - clear. induction Ts as [|T Ts IH]; [reflexivity|]. cbn [map count_occ filter]. unfold q at 1. destruct (list_eq_dec _ _ _); cbn [length]; auto.
Qed.
