(** The quantum Pieri rule of OG(n,2n+2) (k = 1, two quantum parameters), for
    n <= 7: there the sets of orthogonal_grassmannian.py:298-300 are iterated in
    increasing order (compare C42). *)

From Coq Require Import ZArith List Lia Bool Permutation QArith Qcanon Setoid Morphisms.
From Verif Require Import Py OrderFacts PyFacts ModelPart ModelQcalc ModelPoly ModelGr Spec SpecPieri
  PolyFacts SuppFacts Conv Enum FillFacts PartFacts ConjFacts PairFacts DualFacts Schub GrInv ApiPair ApiIndex PieriA QPieriA PieriSet PieriBKT CompsFacts
  CompsBound WSum PieriCoef PieriD QPieriD ApiPieriQ.
Import ListNotations.
Open Scope Z_scope.

Definition dix (g : gr) (a : list Z) : list Z := dualize_index_inner a (ambient_N g) (g_type g).
Lemma dualize_gen g (V : list Z -> Prop) (d : list Z -> list Z) p :
  (forall l, V l -> exists a, to_idx g l = Ok a /\ nonneg a /\ nonneg (dix g a) /\ of_idx g (dix g a) = Ok (d l) /\ nonneg (d l)) ->
  expr_in (on_list V) p -> exists r, dualize g p = Ok r /\ peq r (psubst (ren (hl d)) p).
Proof.
  intros HV Hp. set (ix := fun l => match to_idx g l with Ok a => a | _ => [] end).
  set (px := fun l => match of_idx g l with Ok a => a | _ => [] end).
  set (W1 := fun a => exists l, V l /\ a = ix l). set (W2 := fun b => exists a, W1 a /\ b = dix g a).
  assert (A1 : forall s, on_list V s -> on_part (fun lam => a <- to_idx g lam ;; ret_schur (SP a)) s = Ok (pvar (VS (hl ix s))) /\ on_list W1 (hl ix s)).
  { apply (on_part_conv (to_idx g)).
    - intros l Hl. split; [|exists l; auto]. destruct (HV l Hl) as (a & E & _). unfold ix. rewrite E. reflexivity.
    - intros a (l & Hl & ->). destruct (HV l Hl) as (a & E & Ha & _). unfold ix. rewrite E. auto. }
  assert (A2 : forall s, on_list W1 s -> on_part (fun idx => ret_schur (SP (dualize_index_inner idx (ambient_N g) (g_type g)))) s =
     Ok (pvar (VS (hl (dix g) s))) /\ on_list W2 (hl (dix g) s)).
  { intros [l|] Hs; [|contradiction]. simpl. destruct Hs as (l0 & Hl & ->). split.
    - apply ret_nonneg. destruct (HV l0 Hl) as (a & E & _ & Ha & _). unfold ix. rewrite E. exact Ha.
    - exists (ix l0). split; auto. exists l0. auto. }
  assert (A3 : forall s, on_list W2 s -> on_part (fun lam => a <- of_idx g lam ;; ret_schur (SP a)) s = Ok (pvar (VS (hl px s))) /\ on_list (fun l => nonneg l) (hl px s)).
  { apply (on_part_conv (of_idx g)); auto.
    intros b (a & (l & Hl & ->) & ->). destruct (HV l Hl) as (a & E & _ & _ & E2 & Hd). unfold ix, px. rewrite E, E2. auto. }
  destruct (conv_ok _ _ _ _ p A1 Hp) as (a & Ea & Pa & Va).
  destruct (conv_ok _ _ _ _ a A2 Va) as (b & Eb & Pb & Vb).
  destruct (conv_ok _ _ _ _ b A3 Vb) as (c & Ec & Pc & Vc).
  exists c. split.
  - change (part2index g p = Ok a) in Ea. change (index2part g b = Ok c) in Ec. unfold dualize.
    rewrite Ea. cbn [bind]. rewrite Eb. cbn [bind]. exact Ec.
  - rewrite Pc, Pb, Pa. rewrite (ren_comp (hl ix) (hl (dix g)) p). rewrite ren_comp.
    apply (ren_ext (on_list V)); auto. intros [l|] Hs; [|contradiction]. simpl. do 1 f_equal.
    destruct (HV l Hs) as (x & E & _ & _ & E2 & _). unfold ix, px. rewrite E, E2. reflexivity.
Qed.

(** ** classes indexed by a list [L] *)
Definition img (L : list (list Z)) (h : list Z -> list Z) (W : list Z -> Qc) (z : poly) : Prop :=
  exists Z', lincl z Z' /\ (forall l, In l L -> Z' (h l) = W l) /\ (forall l', Z' l' <> 0%Qc -> exists l, In l L /\ l' = h l).

Lemma img_id L W z : lincl z W -> (forall l, W l <> 0%Qc -> In l L) -> img L (fun l => l) W z.
Proof. intros H H1. exists W. split; auto. split; auto. intros l Hl. exists l. auto. Qed.
Section Step.
Variables (L : list (list Z)) (h h2 : list Z -> list Z) (W : list Z -> Qc).
Hypothesis Hinj : forall l l', In l L -> In l' L -> h2 (h l) = h2 (h l') -> l = l'.
Hypothesis Hneg : forall l, In l L -> h l <> [-1].
Definition inv (l' : list Z) : list Z :=
  match find (fun l => if l_dec (h2 (h l)) l' then true else false) L with Some l => h l | None => [-1] end.
Lemma inv_ok l : In l L -> inv (h2 (h l)) = h l.
Proof.
  intros Hl. unfold inv. destruct (find _ L) as [x|] eqn:E.
  - apply find_some in E. destruct E as [Hx E]. destruct (l_dec _ _) as [E1|]; [|discriminate]. f_equal. apply Hinj; auto.
  - exfalso. apply (find_none _ _ E) in Hl. destruct (l_dec _ _); congruence.
Qed.
Lemma inv_iff l l' : In l L -> (h2 (h l) = l' <-> h l = inv l').
Proof.
  intros Hl. split; [intros <-; symmetry; apply inv_ok; auto|]. intros E. unfold inv in E. destruct (find _ L) as [x|] eqn:Ef.
  - apply find_some in Ef. destruct Ef as [Hx E2]. destruct (l_dec _ _) as [E1|]; [|discriminate]. congruence.
  - exfalso. apply (Hneg l Hl E).
Qed.
Lemma inv_img Z' : (forall l, In l L -> Z' (h l) = W l) -> (forall l', Z' l' <> 0%Qc -> exists l, In l L /\ l' = h l) ->
  (forall l, In l L -> Z' (inv (h2 (h l))) = W l) /\ (forall l', Z' (inv l') <> 0%Qc -> exists l, In l L /\ l' = h2 (h l)).
Proof.
  intros H1 H2. split.
  - intros l Hl. rewrite inv_ok by auto. auto.
  - intros l' Hl'. destruct (H2 _ Hl') as (l & Hl & E). exists l. split; auto. symmetry. apply inv_iff; auto.
Qed.
Lemma img_apply f z : img L h W z -> (forall l, In l L -> f (h l) = Ok (pS (h2 (h l)))) ->
  exists r, apply_lc (on_part f) z = Ok r /\ img L (fun l => h2 (h l)) W r.
Proof.
  intros (Z' & Hz & H1 & H2) Hf.
  destruct (apply_map f (fun l => Some (h2 l)) inv z Z' Hz) as (r & Er & Hr).
  - intros l Hl. destruct (H2 l Hl) as (x & Hx & ->). exists (pS (h2 (h x))). split; auto. reflexivity.
  - intros l l' Hl. destruct (H2 l Hl) as (x & Hx & ->). rewrite <- inv_iff by auto. split; congruence.
  - exists r. split; auto. exists (fun l' => Z' (inv l')). split; auto. apply inv_img; auto.
Qed.
Lemma img_subst z : img L h W z -> (forall l, In l L -> nonneg (h2 (h l))) -> img L (fun l => h2 (h l)) W (psubst (ren (hl h2)) z).
Proof.
  intros HI Hn. destruct (img_apply (fun l => ret_schur (SP (h2 l))) z HI) as (r & Er & Z' & Hr & H1 & H2).
  { intros l Hl. apply ret_nonneg. auto. }
  exists Z'. split; [|auto]. eapply lincl_peq; [|exact Hr].
  destruct HI as (Z0 & Hz & H3 & H4).
  destruct (conv_ok (on_part (fun l => ret_schur (SP (h2 l)))) (hl h2) (on_list (fun l => exists x, In x L /\ l = h x)) (fun _ => True) z) as (r' & Er' & Hr' & _).
  - intros [l|] Hs; [|contradiction]. destruct Hs as (x & Hx & ->). split; auto. simpl. apply ret_nonneg; auto.
  - intros m Hm. destruct (lincl_inv _ _ _ Hz Hm) as (l & -> & Hl). constructor; [|constructor]. simpl. apply H4; auto.
  - rewrite Er in Er'. injection Er' as <-. exact Hr'.
Qed.
End Step.
Lemma img_expr L h W z : img L h W z -> expr_in (on_list (fun l => exists x, In x L /\ l = h x)) z.
Proof.
  intros (Z' & Hz & _ & H4) m Hm. destruct (lincl_inv _ _ _ Hz Hm) as (l & -> & Hl). constructor; [|constructor]. simpl. auto.
Qed.

(** ** the finite computation *)
Definition strictL (n : Z) : list (list Z) := match all_kstrict 0 (n + 1) n with Ok L => L | _ => [] end.
Lemma strictL_iff n l : 0 <= n -> In l (strictL n) <-> typed_in 0 (n + 1) n l.
Proof.
  intros Hn. destruct (c13_kstrict 0 (n + 1) n) as (L & E & _ & HL); try lia. unfold strictL. rewrite E, HL.
  unfold typed_in. split; auto. intros [H|(? & _ & H & _)]; auto. lia.
Qed.
Definition F1 (n : Z) (mu : list Z) : list Z := rev (set_minus_list (set_of (zrange 1 (n + 1))) mu).
Definition F2 (b : bool) (n : Z) (mu : list Z) : list Z :=
  if b then map (fun x => x + 1) mu ++ repz 1 (n - zlen mu) ++ [0] else map (fun x => x + 1) mu ++ repz 1 (n - zlen mu).
(** first row to first column *)
Definition Hc (mu : list Z) : list Z := match mu with [] => [] | a :: t => map (fun x => x + 1) t ++ repz 1 (a - zlen t) end.
Definition Hb (b : bool) (mu : list Z) : list Z := if b then Hc mu else match mu with [] => [] | _ => Hc mu ++ [0] end.
Definition nnb (l : list Z) : bool := forallb (Z.leb 0) l.
Lemma nnb_ok l : nnb l = true -> nonneg l.
Proof. unfold nnb, nonneg. rewrite forallb_forall, Forall_forall. intros H x Hx. apply Z.leb_le, H, Hx. Qed.
Definition D1 (n : Z) (l : list Z) : list Z :=
  match to_idx (mkGr TD 1 n) l with Ok a => match of_idx (mkGr TD 1 n) (dix (mkGr TD 1 n) a) with Ok b => b | _ => [] end | _ => [] end.
Definition ck1 (b : bool) (n : Z) (mu : list Z) : bool :=
  let nu := F1 n mu in let a := F2 b n nu in
  nnb nu && nnb a &&
  match to_idx (mkGr TD 1 n) a with
  | Ok x => nnb x && nnb (dix (mkGr TD 1 n) x) &&
     match of_idx (mkGr TD 1 n) (dix (mkGr TD 1 n) x) with
     | Ok y => if l_dec y (Hb b mu) then nnb y else false | _ => false end
  | _ => false end.
Lemma ck_all : forallb (fun n => forallb (fun mu => ck1 true n mu && ck1 false n mu) (strictL n)) [1; 2; 3; 4; 5; 6; 7] = true.
Proof. vm_compute. reflexivity. Qed.

Lemma ck_ok b n mu : 1 <= n <= 7 -> In mu (strictL n) -> ck1 b n mu = true.
Proof.
  intros Hn Hmu. assert (HI : In n [1; 2; 3; 4; 5; 6; 7]) by (simpl; lia).
  pose proof ck_all as H. rewrite forallb_forall in H. apply H in HI. rewrite forallb_forall in HI. apply HI in Hmu.
  apply andb_true_iff in Hmu. destruct b; tauto.
Qed.
Lemma ck_use b n mu : 1 <= n <= 7 -> In mu (strictL n) ->
  nonneg (F1 n mu) /\ nonneg (F2 b n (F1 n mu)) /\ D1 n (F2 b n (F1 n mu)) = Hb b mu /\ nonneg (Hb b mu) /\
  exists a, to_idx (mkGr TD 1 n) (F2 b n (F1 n mu)) = Ok a /\ nonneg a /\ nonneg (dix (mkGr TD 1 n) a) /\
    of_idx (mkGr TD 1 n) (dix (mkGr TD 1 n) a) = Ok (Hb b mu).
Proof.
  intros Hn Hmu. apply (ck_ok b n mu Hn) in Hmu. unfold ck1 in Hmu. cbv zeta in Hmu.
  apply andb_true_iff in Hmu. destruct Hmu as [H1 H2]. apply andb_true_iff in H1. destruct H1 as [H0 H1].
  unfold D1. destruct (to_idx (mkGr TD 1 n) (F2 b n (F1 n mu))) as [x|] eqn:E; [|discriminate].
  apply andb_true_iff in H2. destruct H2 as [H2 H3]. apply andb_true_iff in H2. destruct H2 as [H2 H4].
  destruct (of_idx (mkGr TD 1 n) (dix (mkGr TD 1 n) x)) as [y|] eqn:E2; [|discriminate].
  destruct (l_dec y (Hb b mu)) as [->|]; [|discriminate].
  split; [apply nnb_ok; auto|]. split; [apply nnb_ok; auto|]. split; auto. split; [apply nnb_ok; auto|].
  exists x. split; auto. split; [apply nnb_ok; auto|]. split; [apply nnb_ok; auto|]. auto.
Qed.

(** ** shapes *)
Lemma last_pos l : is_partition l -> 0 < last l 1.
Proof.
  intros H. apply partition_pos in H. destruct l as [|x l _] using rev_ind; [simpl; lia|]. rewrite last_last.
  apply Forall_app in H. destruct H as [_ H]. inversion H. lia.
Qed.
Lemma decp_shape prev l : decp prev l -> l = shape l ++ repz 0 (zlen l - zlen (shape l)).
Proof.
  revert prev. induction l as [|x t IH]; intros prev H; [reflexivity|]. destruct H as [H1 H2].
  unfold shape. cbn [filter]. fold (shape t). destruct (Z.ltb_spec 0 x) as [E|E].
  - rewrite !zlen_cons. cbn [app]. f_equal. rewrite (IH x H2) at 1. do 2 f_equal. lia.
  - assert (x = 0) as -> by lia. assert (Ht : forall l, decp 0 l -> shape l = [] /\ l = repz 0 (zlen l)).
    { clear. induction l as [|y l IH]; intros H; [auto|]. destruct H as [H1 H2]. assert (y = 0) as -> by lia.
      destruct (IH H2) as [A B]. split; [exact A|]. rewrite B at 1. rewrite zlen_cons. unfold repz.
      rewrite Z2Nat.inj_add by (unfold zlen; lia). rewrite Nat.add_comm. reflexivity. }
    destruct (Ht t H2) as [A B]. rewrite A. cbn [app]. change (zlen (@nil Z)) with 0. rewrite Z.sub_0_r.
    apply (Ht (0 :: t)). simpl. auto with zarith.
Qed.
Lemma shape_pos l : Forall (fun x => 0 < x) (shape l).
Proof. apply Forall_forall. intros x Hx. unfold shape in Hx. apply filter_In in Hx. lia. Qed.
Lemma clip_shape prev l : decp prev l -> part_clip l = shape l.
Proof.
  intros H. rewrite (decp_shape prev l H) at 1. rewrite part_clip_app0. apply part_clip_pos.
  eapply Forall_impl; [|apply shape_pos]. simpl. lia.
Qed.
Lemma decp_pred l : forall prev, decp prev l -> Forall (fun x => 0 < x) l -> decp prev (map (fun x => x - 1) l).
Proof.
  induction l as [|x t IH]; intros prev H Hp; [exact I|]. destruct H as [H1 H2]. inversion Hp; subst. split; [lia|].
  specialize (IH x H2 H4). destruct t as [|y u]; [exact I|]. simpl in *. inversion H4; subst. destruct H2. destruct IH. split; auto. lia.
Qed.
Lemma less_column_strip s : is_partition s -> less_column s = strip s.
Proof.
  intros H. unfold less_column, strip. symmetry. apply (clip_shape (part s 0)).
  apply decp_pred; [apply partition_decp; auto|apply partition_pos; auto].
Qed.
Lemma lb_ok k rows cols lam : typed_in k rows cols lam -> part_clip (map (fun x => Z.max (x - 1) 0) lam) = less_column (shape lam).
Proof.
  intros H. destruct (typed_shape _ _ _ _ H) as (H1 & H2). rewrite less_column_strip by apply H1. unfold strip.
  assert (E : map (fun x => Z.max (x - 1) 0) (shape lam) = map (fun x => x - 1) (shape lam)).
  { apply map_ext_in. intros x Hx. pose proof (shape_pos lam) as HF. rewrite Forall_forall in HF. specialize (HF x Hx). lia. }
  destruct H2 as [E2|(E2 & _)]; rewrite E2 at 1; [rewrite E; auto|]. rewrite map_app, E.
  change (map (fun x => Z.max (x - 1) 0) [0]) with (repz 0 1). apply part_clip_app0.
Qed.
Lemma lb_typed n lam : 1 <= n -> typed_in 1 n (n + 1) lam -> typed_in 0 (n + 1) n (less_column (shape lam)).
Proof.
  intros Hn H. destruct (typed_shape _ _ _ _ H) as (((H1 & H2 & H3) & H4) & _). rewrite less_column_strip by auto.
  left. split; [split; [apply strip_partition; auto|split]|].
  - unfold strip. pose proof (zlen_clip (map (fun x => x - 1) (shape lam))) as HZ. unfold zlen in HZ. rewrite map_length in HZ. lia.
  - rewrite part_strip by auto. lia.
  - intros j. rewrite !part_strip by auto. specialize (H4 j). lia.
Qed.

Lemma strict_len : forall l, is_partition l -> kstrict 0 l -> l <> [] -> zlen l <= part l 0.
Proof.
  induction l as [|x t IH]; intros H H1 H2; [congruence|]. rewrite zlen_cons. unfold part. simpl nth.
  destruct t as [|y u].
  - destruct H as [H _]. specialize (H O). unfold part in H. simpl in H. change (zlen (@nil Z)) with 0. lia.
  - pose proof (H1 O) as H3. unfold part in H3. simpl in H3. destruct H as [H4 H5]. pose proof (H4 O) as H6. unfold part in H6. simpl in H6.
    assert (H7 : zlen (y :: u) <= part (y :: u) 0).
    { apply IH; [eapply is_partition_tail; split; eauto|intros j; apply (H1 (S j))|discriminate]. }
    unfold part in H7. simpl nth in H7. lia.
Qed.
Section Col.
Variables (n : Z) (a : Z) (t : list Z).
Hypothesis Hn : 1 <= n.
Hypothesis HL : kstrict_in 0 (n + 1) n (a :: t).
Lemma col_a : zlen t + 1 <= a <= n.
Proof.
  destruct HL as ((H1 & H2 & H3) & H4). pose proof (strict_len _ H1 H4 ltac:(discriminate)) as H5. rewrite zlen_cons in H5.
  unfold part in *. simpl in *. lia.
Qed.
Lemma col_pos : Forall (fun x => 0 < x) t.
Proof. destruct HL as ((H1 & _) & _). apply partition_pos in H1. inversion H1; auto. Qed.
Lemma Hc_part j : part (Hc (a :: t)) j = if Z.of_nat j <? a then part t j + 1 else 0.
Proof.
  pose proof col_a as Ha. unfold Hc, part. destruct (le_lt_dec (length t) j) as [E|E].
  - rewrite app_nth2, map_length by (rewrite map_length; lia). rewrite (nth_overflow t) by lia.
    unfold repz, zlen in *. destruct (Z.ltb_spec (Z.of_nat j) a) as [E1|E1].
    + rewrite (nth_indep _ 0 1) by (rewrite repeat_length; lia). rewrite nth_repeat. reflexivity.
    + rewrite nth_overflow; [auto|]. rewrite repeat_length. lia.
  - rewrite app_nth1 by (rewrite map_length; lia). rewrite (nth_indep _ 0 (0 + 1)) by (rewrite map_length; lia).
    rewrite (map_nth (fun x => x + 1)). unfold zlen in Ha. replace (Z.of_nat j <? a) with true by lia. reflexivity.
Qed.
Lemma Hc_len : Z.of_nat (length (Hc (a :: t))) = a.
Proof. pose proof col_a as Ha. unfold Hc, zlen, repz in *. rewrite app_length, map_length, repeat_length. lia. Qed.
Lemma t_part : is_partition t /\ kstrict 0 t /\ part t 0 < a.
Proof.
  destruct HL as ((H1 & H2 & H3) & H4). split; [eapply is_partition_tail; eauto|]. split; [intros j; apply (H4 (S j))|].
  specialize (H4 O). unfold part in *. simpl in *. pose proof col_a. pose proof (zlen_nonneg t). lia.
Qed.
Lemma Hc_in : kstrict_in 1 n (n + 1) (Hc (a :: t)).
Proof.
  pose proof col_a as Ha. destruct t_part as (H1 & H2 & H3). pose proof (zlen_nonneg t) as Hz.
  split; [split; [split|split]|].
  - intros j Hj. rewrite Hc_part. pose proof Hc_len. replace (Z.of_nat j <? a) with true by lia. pose proof (is_partition_nonneg t j H1). lia.
  - intros j. rewrite !Hc_part. pose proof (proj2 H1 j). pose proof (is_partition_nonneg t j H1). destruct (Z.ltb_spec (Z.of_nat j) a), (Z.ltb_spec (Z.of_nat (S j)) a); lia.
  - rewrite Hc_len. lia.
  - rewrite Hc_part. destruct (Z.ltb_spec (Z.of_nat 0) a); lia.
  - intros j. rewrite !Hc_part. specialize (H2 j). pose proof (is_partition_nonneg t j H1).
    destruct (Z.ltb_spec (Z.of_nat j) a), (Z.ltb_spec (Z.of_nat (S j)) a); lia.
Qed.
Lemma Hc_one : In 1 (Hc (a :: t)).
Proof.
  pose proof col_a as Ha. unfold Hc. apply in_app_iff. right. unfold repz. destruct (Z.to_nat (a - zlen t)) eqn:E; [lia|]. left. reflexivity.
Qed.
Lemma Hc_shape : shape (Hc (a :: t)) = Hc (a :: t).
Proof. apply shape_partition. apply Hc_in. Qed.
Lemma Hc_less : less_column (Hc (a :: t)) = t.
Proof.
  destruct t_part as (H1 & H2 & H3). pose proof (proj1 (proj1 Hc_in)) as H4. rewrite less_column_strip by auto.
  apply partition_eq; auto; [apply strip_partition; auto|]. intros j. rewrite part_strip, Hc_part by auto.
  pose proof (is_partition_nonneg t j H1). destruct (Z.ltb_spec (Z.of_nat j) a); [lia|].
  assert (part t j = 0); [|lia]. unfold part. apply nth_overflow. pose proof col_a. unfold zlen in *. lia.
Qed.
Lemma Hb_col b : column_to_row (Hb b (a :: t)) = a :: t.
Proof.
  assert (E : shape (Hb b (a :: t)) = Hc (a :: t)).
  { destruct b; unfold Hb; [|rewrite shape_app0]; apply Hc_shape. }
  unfold column_to_row. rewrite E. pose proof Hc_len as HL'. pose proof Hc_less as HL2. pose proof col_a. pose proof (zlen_nonneg t).
  destruct (Hc (a :: t)) eqn:E2; [simpl in HL'; lia|]. rewrite HL', HL2. reflexivity.
Qed.
Lemma Hb_type b : typed_in 1 n (n + 1) (Hb b (a :: t)) /\ type_of 1 (Hb b (a :: t)) = if b then 1 else 2.
Proof.
  assert (E : existsb (Z.eqb 1) (Hc (a :: t)) = true) by (apply existsb_exists; exists 1; split; [apply Hc_one|reflexivity]).
  unfold type_of. destruct b; unfold Hb.
  - split; [left; apply Hc_in|]. rewrite E. pose proof (PieriCoef.last_partition _ (proj1 (proj1 Hc_in))).
    replace (last (Hc (a :: t)) 1 =? 0) with false by lia. reflexivity.
  - split; [right; exists (Hc (a :: t)); split; auto; split; [lia|]; split; [apply Hc_one|apply Hc_in]|].
    rewrite existsb_app, E, last_last. reflexivity.
Qed.
End Col.

Section L.
Variable (n : Z).
Hypothesis Hn : 1 <= n.
Lemma L_cases mu : In mu (strictL n) -> mu = [] \/ exists a t, mu = a :: t /\ kstrict_in 0 (n + 1) n (a :: t).
Proof.
  intros H. apply strictL_iff in H; [|lia]. destruct H as [H|(? & _ & H & _)]; [|lia]. destruct mu as [|a t]; eauto.
Qed.
Lemma L_col b mu : In mu (strictL n) -> column_to_row (Hb b mu) = mu.
Proof. intros H. destruct (L_cases mu H) as [->|(a & t & -> & H1)]; [destruct b; reflexivity|]. eapply Hb_col; eauto. Qed.
Lemma L_inj b mu mu' : In mu (strictL n) -> In mu' (strictL n) -> Hb b mu = Hb b mu' -> mu = mu'.
Proof. intros H H' E. rewrite <- (L_col b mu H), <- (L_col b mu' H'), E. reflexivity. Qed.
Lemma nil_typed k rows cols : 0 <= k -> 0 <= rows -> 0 <= cols -> typed_in k rows cols [].
Proof.
  intros H0 H1 H2. left. split; [split; [apply is_partition_nil|simpl; unfold part; simpl; lia]|]. intros j. unfold part. destruct j; simpl; lia.
Qed.
Lemma L_type b mu : In mu (strictL n) -> typed_in 1 n (n + 1) (Hb b mu) /\ type_of 1 (Hb b mu) <> if b then 2 else 1.
Proof.
  intros H. destruct (L_cases mu H) as [->|(a & t & -> & H1)].
  - destruct b; (split; [apply nil_typed; lia|discriminate]).
  - destruct (Hb_type n a t Hn H1 b) as [A B]. split; auto. rewrite B. destruct b; lia.
Qed.
Lemma L_back (b : bool) kap : typed_in 1 n (n + 1) kap -> type_of 1 kap <> (if b then 2 else 1) -> In (column_to_row kap) (strictL n) ->
  Hb b (column_to_row kap) = kap.
Proof.
  intros H Ht HI. destruct (typed_shape _ _ _ _ H) as (((H1 & H2 & H2') & H3) & H4). unfold column_to_row in *.
  destruct (shape kap) as [|x s] eqn:Es.
  { destruct H4 as [->|(_ & _ & [])]. destruct b; reflexivity. }
  set (u := x :: s) in *. destruct (L_cases _ HI) as [E|(a & t & E & HK)]; [discriminate|].
  pose proof (f_equal (fun l => hd 0 l) E) as Ea. pose proof (f_equal (@tl Z) E) as Et. cbn [hd tl] in Ea, Et. clear E.
  pose proof (col_a n a t HK) as Ha.
  assert (EH : Hc (Z.of_nat (length u) :: less_column u) = u).
  { rewrite Ea, Et. apply partition_eq; auto; [apply (Hc_in n a t Hn HK)|]. intros j. rewrite (Hc_part n a t HK), <- Et.
    rewrite less_column_strip, part_strip by auto. rewrite <- Ea. destruct (Z.ltb_spec (Z.of_nat j) (Z.of_nat (length u))) as [E|E].
    - pose proof (proj1 H1 j). lia.
    - unfold part. rewrite nth_overflow by lia. reflexivity. }
  assert (H1u : In 1 u) by (rewrite <- EH, Ea, Et; apply (Hc_one n a t HK)).
  destruct (type_of_cases _ _ _ _ H) as [(A & B & C)|[(A & B & C)|(A & B & C)]]; rewrite Es in *; fold u in B, C.
  - contradiction.
  - destruct b; [|congruence]. unfold Hb. rewrite EH. auto.
  - destruct b; [congruence|]. unfold Hb. rewrite EH. auto.
Qed.
End L.

(** ** coefficients in q1 and q2 *)
Definition q12 (a b : nat) : mono := repeat VQ1 a ++ repeat VQ2 b.
Lemma q12_perm a b l d1 d2 mu : Permutation (q12 a b ++ [vS l]) (q12S d1 d2 mu) <-> a = d1 /\ b = d2 /\ l = mu.
Proof.
  split.
  - intros H. assert (HC : forall v, count_occ var_eq_dec (q12 a b ++ [vS l]) v = count_occ var_eq_dec (q12S d1 d2 mu) v)
      by (intros v; apply Permutation_count_occ; auto).
    assert (A : forall x y, count_occ var_eq_dec (q12 x y) VQ1 = x /\ count_occ var_eq_dec (q12 x y) VQ2 = y).
    { intros x y. unfold q12. rewrite !count_occ_app. rewrite !count_occ_repeat_eq by auto. rewrite !count_occ_repeat_neq by discriminate. rewrite ?count_occ_repeat_eq by auto. split; lia. }
    pose proof (HC VQ1) as H1. pose proof (HC VQ2) as H2. unfold q12S in H1, H2. fold (q12 d1 d2) in H1, H2.
    rewrite count_occ_app in H1, H2. simpl in H1, H2.
    destruct (A a b) as (A1 & A2), (A d1 d2) as (B1 & B2).
    destruct (var_eq_dec (vS l) VQ1); [discriminate|]. destruct (var_eq_dec (vS mu) VQ1); [discriminate|].
    destruct (var_eq_dec (vS l) VQ2); [discriminate|]. destruct (var_eq_dec (vS mu) VQ2); [discriminate|].
    split; [lia|]. split; [lia|].
    assert (HI : In (vS l) (q12S d1 d2 mu)).
    { apply (Permutation_in _ H). apply in_app_iff. right. left. reflexivity. }
    destruct HI as [E|E]; [injection E; auto|]. apply in_app_iff in E. destruct E as [E|E]; apply repeat_spec in E; discriminate.
  - intros (-> & -> & ->). rewrite <- Permutation_cons_append. reflexivity.
Qed.
Lemma e12_mul a b z W : lincl z W ->
  expands12 (pmul [(q12 a b, 1%Qc)] z) (fun d1 d2 mu => if (d1 =? a)%nat && (d2 =? b)%nat then W mu else 0%Qc).
Proof.
  intros Hz.
  assert (HC : forall m, coef (pmul [(q12 a b, 1%Qc)] z) m = phi (fun c => bq (mono_eqb (q12 a b ++ c) m)) (pnorm z)).
  { intros m. rewrite coef_pmul. cbn [phi]. rewrite phi_pnorm_inv; [ring|].
    intros x y Hxy. f_equal. destruct (mono_eqb (q12 a b ++ x) m) eqn:E1, (mono_eqb (q12 a b ++ y) m) eqn:E2; auto; exfalso.
    - apply mono_eqb_perm in E1. apply mono_eqb_false in E2. apply E2. rewrite <- Hxy. auto.
    - apply mono_eqb_perm in E2. apply mono_eqb_false in E1. apply E1. rewrite Hxy. auto. }
  assert (HS : forall c x, In (c, x) (pnorm z) -> exists l, c = [vS l]).
  { intros c x Hin. assert (Hc : coef z c <> 0%Qc).
    { rewrite <- coef_pnorm. rewrite (nf_coef_in _ _ _ (pnorm_nf z) Hin).
      destruct (pnorm_nf z) as (_ & Hq). rewrite Forall_forall in Hq. apply (Hq _ Hin). }
    destruct (lincl_inv _ _ _ Hz Hc) as (l & -> & _). eauto. }
  split.
  - intros d1 d2 mu. rewrite HC. destruct ((d1 =? a)%nat && (d2 =? b)%nat) eqn:E.
    + apply andb_true_iff in E. destruct E as [E1 E2]. apply Nat.eqb_eq in E1, E2. subst.
      rewrite <- (lincl_coef z W mu Hz), <- coef_pnorm, coef_phi. apply phi_ext. intros c x Hin. destruct (HS c x Hin) as (l & ->). f_equal.
      destruct (mono_eqb [vS l] [vS mu]) eqn:E.
      * apply mono_eqb_perm, perm_vS in E. injection E as <-. apply mono_eqb_perm, q12_perm. auto.
      * apply mono_eqb_false in E. apply mono_eqb_false. intros HP. apply E. apply q12_perm in HP. destruct HP as (_ & _ & ->). reflexivity.
    + apply phi_zero. intros c x Hin. destruct (HS c x Hin) as (l & ->). destruct (mono_eqb _ _) eqn:E1; auto. exfalso.
      apply mono_eqb_perm, q12_perm in E1. destruct E1 as (-> & -> & _). rewrite !Nat.eqb_refl in E. discriminate.
  - intros m Hm. rewrite HC in Hm. destruct (existsb (fun cx => mono_eqb (q12 a b ++ fst cx) m) (pnorm z)) eqn:Ex.
    + apply existsb_exists in Ex. destruct Ex as ([c x] & Hin & E). apply mono_eqb_perm in E. destruct (HS c x Hin) as (l & ->).
      exists a, b, l. rewrite <- E. apply q12_perm. auto.
    + exfalso. apply Hm. apply phi_zero. intros c x Hin. destruct (mono_eqb (q12 a b ++ c) m) eqn:E; auto. exfalso.
      assert (HT : existsb (fun cx => mono_eqb (q12 a b ++ fst cx) m) (pnorm z) = true); [|congruence].
      apply existsb_exists. exists (c, x). auto.
Qed.
Lemma e12_peq p r c : peq p r -> expands12 p c -> expands12 r c.
Proof. intros E (H1 & H2). split; [intros; rewrite <- (E (q12S d1 d2 mu)); auto|]. intros m. rewrite <- (E m). auto. Qed.
Lemma e12_ext p c c' : (forall d1 d2 l, c d1 d2 l = c' d1 d2 l) -> expands12 p c -> expands12 p c'.
Proof. intros E (H1 & H2). split; auto. intros. rewrite <- E. auto. Qed.
Lemma e12_padd p r c c' : expands12 p c -> expands12 r c' -> expands12 (padd p r) (fun d1 d2 l => (c d1 d2 l + c' d1 d2 l)%Qc).
Proof.
  intros (H1 & H2) (H3 & H4). split.
  - intros d1 d2 mu. rewrite coef_padd, H1, H3. reflexivity.
  - intros m Hm. rewrite coef_padd in Hm. destruct (Qc_eq_dec (coef p m) 0%Qc) as [E|E]; auto.
    apply H4. intros E'. apply Hm. rewrite E, E'. ring.
Qed.
Lemma e12_lincl p W : lincl p W -> expands12 p (fun d1 d2 l => match d1, d2 with O, O => W l | _, _ => 0%Qc end).
Proof.
  intros H. split.
  - intros [|d1] [|d2] mu; rewrite (H (q12S _ _ mu)); reflexivity.
  - intros m Hm. destruct (lincl_inv _ _ _ H Hm) as (l & -> & _). exists O, O, l. reflexivity.
Qed.
Lemma e12_zero : expands12 pzero (fun _ _ _ => 0%Qc).
Proof. split; [reflexivity|]. intros m Hm. exfalso. apply Hm. reflexivity. Qed.

(** ** the q1- and q2-terms *)
Section Main.
Variables (n p : Z) (lam : list Z).
Hypothesis Hn : 1 <= n <= 7.
Hypothesis HL : typed_in 1 n (n + 1) lam.
Let g := mkGr TD 1 n.
Let lb := less_column (shape lam).

Lemma cprd_ok : exists c0 W,
  (cprd <- symbol (SP lb) ;; if 1 <? Z.abs p then pieriD_inner (Z.abs p - 1) lb 0 n else Ok cprd) = Ok c0 /\
  lincl c0 W /\ (p <> 0 -> forall mu, coef_D1 n p lam mu (W mu)) /\ (forall mu, W mu <> 0%Qc -> In mu (strictL n)).
Proof.
  pose proof (lb_typed n lam ltac:(lia) HL) as Hlb. fold lb in Hlb.
  rewrite symbol_ok by (eapply typed_nonneg; eauto). cbn [bind]. destruct (Z.ltb_spec 1 (Z.abs p)) as [E|E].
  - destruct (pieriD_lincl 0 n (Z.abs p - 1) lb) as (c0 & W & E0 & H0 & HW); try lia.
    { rewrite Z.sub_0_r, Z.add_0_r. auto. }
    exists c0, W. split; auto. split; auto. split.
    + intros _ mu. unfold coef_D1. replace (Z.abs p =? 1) with false by lia. apply HW.
    + intros mu Hmu. apply strictL_iff; [lia|]. apply (coef_D_supp _ _ _ _ _ _ (HW mu)) in Hmu. destruct Hmu as (Hl & _).
      rewrite Z.sub_0_r, Z.add_0_r in Hl. auto.
  - exists (pS lb), (fun l => if l_dec lb l then 1%Qc else 0%Qc). split; auto. split; [intros m; apply coef_pS|]. split.
    + intros Hp mu. unfold coef_D1. replace (Z.abs p =? 1) with true by lia. fold lb. destruct (l_dec lb mu); auto.
    + intros mu. destruct (l_dec lb mu) as [<-|]; [|congruence]. intros _. apply strictL_iff; [lia|auto].
Qed.
Lemma pad_ok b c1 W : img (strictL n) (F1 n) W c1 ->
  exists z, apply_lc (on_part (fun mu => symbol (SP (F2 b n mu)))) c1 = Ok z /\ img (strictL n) (fun l => F2 b n (F1 n l)) W z.
Proof.
  intros H. apply (img_apply (strictL n) (F1 n) (F2 b n) W); auto.
  - intros l l' Hl Hl' E. apply (L_inj n ltac:(lia) b); auto.
    destruct (ck_use b n l Hn Hl) as (_ & _ & <- & _). destruct (ck_use b n l' Hn Hl') as (_ & _ & <- & _). rewrite E. reflexivity.
  - intros l Hl E. destruct (ck_use b n l Hn Hl) as (A & _). rewrite E in A. inversion A. lia.
  - intros l Hl. apply symbol_ok. apply (ck_use b n l Hn Hl).
Qed.
Lemma F1_ok c0 W : lincl c0 W -> (forall mu, W mu <> 0%Qc -> In mu (strictL n)) ->
  exists c1, apply_lc (on_part (toSchurFromIntnMu n)) c0 = Ok c1 /\ img (strictL n) (F1 n) W c1.
Proof.
  intros H H1. apply (img_apply (strictL n) (fun l => l) (F1 n) W).
  - intros l l' Hl Hl' E. apply (L_inj n ltac:(lia) true); auto.
    destruct (ck_use true n l Hn Hl) as (_ & _ & <- & _). destruct (ck_use true n l' Hn Hl') as (_ & _ & <- & _). rewrite E. reflexivity.
  - intros l Hl ->. apply strictL_iff in Hl; [|lia]. apply typed_nonneg in Hl. inversion Hl. lia.
  - apply img_id; auto.
  - intros l Hl. unfold toSchurFromIntnMu. apply symbol_ok. apply (ck_use true n l Hn Hl).
Qed.
Definition Vd (l : list Z) : Prop := exists b mu, In mu (strictL n) /\ l = F2 b n (F1 n mu).
Lemma dual_ok r : expr_in (on_list Vd) r -> exists z, dualize g r = Ok z /\ peq z (psubst (ren (hl (D1 n))) r).
Proof.
  apply dualize_gen. intros l (b & mu & Hmu & ->). destruct (ck_use b n mu Hn Hmu) as (_ & _ & E & A & a & B & C & D & F).
  exists a. rewrite E. auto.
Qed.
Lemma sub_ok b z W : img (strictL n) (fun l => F2 b n (F1 n l)) W z ->
  img (strictL n) (Hb b) W (psubst (ren (hl (D1 n))) z).
Proof.
  intros H. assert (E : forall l, In l (strictL n) -> D1 n (F2 b n (F1 n l)) = Hb b l) by (intros l Hl; apply (ck_use b n l Hn Hl)).
  destruct (img_subst (strictL n) (fun l => F2 b n (F1 n l)) (D1 n) W) with (z := z) as (Z' & A & B & C); auto.
  - intros l l' Hl Hl'. rewrite !E by auto. apply (L_inj n ltac:(lia) b); auto.
  - intros l Hl E1. destruct (ck_use b n l Hn Hl) as (_ & A & _). rewrite E1 in A. inversion A. lia.
  - intros l Hl. rewrite E by auto. apply (ck_use b n l Hn Hl).
  - exists Z'. split; auto. split.
    + intros l Hl. rewrite <- E by auto. auto.
    + intros l' Hl'. destruct (C l' Hl') as (l & Hl & ->). exists l. auto.
Qed.
Lemma Vd_q v z b W : (match v with VS _ => False | _ => True end) -> img (strictL n) (fun l => F2 b n (F1 n l)) W z -> expr_in (on_list Vd) (pmul (pvar v) z).
Proof.
  intros Hv H. apply img_expr in H. apply expr_in_iff. eapply (supp_pmul (evm (on_list Vd)) (evm (on_list Vd))).
  - apply evm_inv.
  - intros x y Hx Hy. apply Forall_app; auto.
  - apply supp_pvar; [apply evm_inv|]. constructor; [|constructor]. destruct v; auto. contradiction.
  - eapply expr_in_impl; [|exact H]. intros [l|]; auto. simpl. intros (x & Hx & ->). exists b, x. auto.
Qed.
(** the coefficient of S_kap in terms of the coefficients for strict partitions *)
Definition coefH (b : bool) (W C : list Z -> Qc) : Prop :=
  (forall kap, typed_in 1 n (n + 1) kap ->
     if negb (type_of 1 kap =? if b then 2 else 1) then C kap = W (column_to_row kap) else C kap = 0%Qc) /\
  (forall kap, C kap <> 0%Qc -> typed_in 1 n (n + 1) kap).
Lemma coefH_ok b W Z' : (forall mu, W mu <> 0%Qc -> In mu (strictL n)) ->
  (forall l, In l (strictL n) -> Z' (Hb b l) = W l) -> (forall l', Z' l' <> 0%Qc -> exists l, In l (strictL n) /\ l' = Hb b l) ->
  coefH b W Z'.
Proof.
  intros HW H1 H2. assert (Hn1 : 1 <= n) by lia. split.
  - intros kap Hk. destruct (Z.eqb_spec (type_of 1 kap) (if b then 2 else 1)) as [E|E]; simpl.
    + destruct (Qc_eq_dec (Z' kap) 0%Qc) as [E0|E0]; auto. exfalso. destruct (H2 kap E0) as (l & Hl & ->).
      destruct (L_type n Hn1 b l Hl) as (_ & F). contradiction.
    + destruct (Qc_eq_dec (Z' kap) 0%Qc) as [E0|E0].
      * destruct (Qc_eq_dec (W (column_to_row kap)) 0%Qc) as [E1|E1]; [congruence|]. apply HW in E1.
        rewrite <- (L_back n Hn1 b kap Hk E E1) at 1. auto.
      * destruct (H2 kap E0) as (l & Hl & ->). rewrite H1 by auto. rewrite (L_col n Hn1) by auto. reflexivity.
  - intros kap Hk. destruct (H2 kap Hk) as (l & Hl & ->). apply (L_type n Hn1 b l Hl).
Qed.
Lemma coefH_use b W C kap : coefH b W C -> typed_in 1 n (n + 1) kap -> (forall mu, coef_D1 n p lam mu (W mu)) ->
  if negb (type_of 1 kap =? if b then 2 else 1) then coef_D1 n p lam (column_to_row kap) (C kap) else C kap = 0%Qc.
Proof. intros (H & _) Hk HW. specialize (H kap Hk). destruct (negb _); auto. rewrite H. auto. Qed.

Lemma psubst_q v z : (match v with VS _ => False | _ => True end) -> peq (psubst (ren (hl (D1 n))) (pmul (pvar v) z)) (pmul (pvar v) (psubst (ren (hl (D1 n))) z)).
Proof. intros Hv. rewrite psubst_pmul, psubst_pvar. destruct v; [contradiction|reflexivity ..]. Qed.

Lemma lead_ok : Z.of_nat (length (shape lam)) = n ->
  exists x, py_get lam (-1) = Ok x /\ (0 <? x) = negb (type_of 1 lam =? 2) /\ ((x =? 0) || negb (zmem 1 lam)) = negb (type_of 1 lam =? 1).
Proof.
  intros Hlen. destruct (typed_shape _ _ _ _ HL) as (((H1 & _) & _) & _).
  assert (HZ : forall l, l <> [] -> py_get l (-1) = Ok (last l 1)).
  { intros l Hl. destruct l as [|y t _] using rev_ind; [congruence|]. rewrite last_last. apply py_get_last. }
  assert (Hne : lam <> []) by (intros E; rewrite E in Hlen; simpl in Hlen; lia).
  exists (last lam 1). split; [apply HZ; auto|].
  destruct (type_of_cases _ _ _ _ HL) as [(A & B & C)|[(A & B & C)|(A & B & C)]]; rewrite A.
  - assert (H9 : 0 < last lam 1) by (rewrite C; apply last_pos; auto). rewrite <- C in B. split; [change (negb _) with true; lia|].
    destruct (zmem 1 lam) eqn:E; [exfalso; apply zmem_iff in E; auto|]. change (negb false) with true. rewrite orb_true_r. reflexivity.
  - assert (H9 : 0 < last lam 1) by (rewrite C; apply last_pos; auto). rewrite <- C in B. split; [change (negb _) with true; lia|].
    assert (E : zmem 1 lam = true) by (apply zmem_iff; auto). rewrite E. cbn [negb]. rewrite orb_false_r. change (negb _) with false. lia.
  - rewrite C, last_last. split; reflexivity.
Qed.

Definition cond1 : bool := negb (type_of 1 lam =? 2) && (0 <? p).
Definition cond2 : bool := negb (type_of 1 lam =? 1) && ((p =? -1) || (1 <? p)).
Lemma qterms_ok r Wr : lincl r Wr -> Z.of_nat (length (shape lam)) = n ->
  exists r1 C1 C2,
   (let lb := part_clip (map (fun x => Z.max (x - 1) 0) lam) in
            cprd <- symbol (SP lb) ;;
            cprd <- (if 1 <? Z.abs p then pieriD_inner (Z.abs p - 1) lb 0 n else Ok cprd) ;;
            cprd <- apply_lc (on_part (toSchurFromIntnMu n)) cprd ;;
            lastx <- py_get lam (-1) ;;
            res1 <- (if (0 <? lastx) && (0 <? p) then
                       z <- apply_lc (on_part (fun mu =>
                              symbol (SP (map (fun x => x + 1) mu ++ repz 1 (n - zlen mu))))) cprd ;;
                       Ok (pmul (pvar VQ1) z)
                     else Ok pzero) ;;
            res1 <- (if ((lastx =? 0) || negb (zmem 1 lam)) && ((p =? -1) || (1 <? p)) then
                       z <- apply_lc (on_part (fun mu =>
                              symbol (SP (map (fun x => x + 1) mu ++ repz 1 (n - zlen mu) ++ [0])))) cprd ;;
                       Ok (padd res1 (pmul (pvar VQ2) z))
                     else Ok res1) ;;
            z <- dualize g res1 ;;
            Ok (padd r z)) = Ok r1 /\
   expands12 r1 (fun d1 d2 l => match d1, d2 with O, O => Wr l | 1%nat, O => C1 l | O, 1%nat => C2 l | _, _ => 0%Qc end) /\
   (forall kap, typed_in 1 n (n + 1) kap ->
      if cond1 && negb (type_of 1 kap =? 1) then coef_D1 n p lam (column_to_row kap) (C1 kap) else C1 kap = 0%Qc) /\
   (forall kap, typed_in 1 n (n + 1) kap ->
      if cond2 && negb (type_of 1 kap =? 2) then coef_D1 n p lam (column_to_row kap) (C2 kap) else C2 kap = 0%Qc) /\
   (forall kap, C1 kap <> 0%Qc \/ C2 kap <> 0%Qc -> typed_in 1 n (n + 1) kap).
Proof.
  intros Hr Hlen. cbv zeta. rewrite (lb_ok _ _ _ _ HL). fold lb.
  destruct cprd_ok as (c0 & W & E0 & H0 & HW & HS).
  destruct (symbol (SP lb)) as [s0|] eqn:Es; [|discriminate E0]. cbn [bind] in E0 |- *. rewrite E0. cbn [bind].
  destruct (F1_ok c0 W H0 HS) as (c1 & E1 & H1). rewrite E1. cbn [bind].
  destruct (lead_ok Hlen) as (x & Ex & X1 & X2). rewrite Ex. cbn [bind]. rewrite X1, X2. fold cond1. fold cond2.
  destruct (pad_ok false c1 W H1) as (z1 & Ez1 & I1). destruct (pad_ok true c1 W H1) as (z2 & Ez2 & I2).
  change (fun mu => symbol (SP (F2 false n mu))) with (fun mu => symbol (SP (map (fun x => x + 1) mu ++ repz 1 (n - zlen mu)))) in Ez1.
  change (fun mu => symbol (SP (F2 true n mu))) with (fun mu => symbol (SP (map (fun x => x + 1) mu ++ repz 1 (n - zlen mu) ++ [0]))) in Ez2.
  rewrite Ez1, Ez2. cbn [bind].
  destruct (sub_ok false z1 W I1) as (Z1 & L1 & A1 & B1). destruct (sub_ok true z2 W I2) as (Z2 & L2 & A2 & B2).
  pose proof (coefH_ok false W Z1 HS A1 B1) as K1. pose proof (coefH_ok true W Z2 HS A2 B2) as K2.
  set (h := psubst (ren (hl (D1 n)))).
  assert (HP1 : expr_in (on_list Vd) (pmul (pvar VQ1) z1)) by (apply (Vd_q VQ1 z1 false W); auto; exact I).
  assert (HP2 : expr_in (on_list Vd) (pmul (pvar VQ2) z2)) by (apply (Vd_q VQ2 z2 true W); auto; exact I).
  set (res1 := if cond1 then pmul (pvar VQ1) z1 else pzero). set (res2 := if cond2 then padd res1 (pmul (pvar VQ2) z2) else res1).
  assert (ER : (if cond1 then Ok (pmul (pvar VQ1) z1) else Ok pzero) = Ok res1) by (unfold res1; destruct cond1; auto).
  rewrite ER. cbn [bind].
  assert (ER2 : (if cond2 then Ok (padd res1 (pmul (pvar VQ2) z2)) else Ok res1) = Ok res2) by (unfold res2; destruct cond2; auto).
  rewrite ER2. cbn [bind].
  assert (V1 : expr_in (on_list Vd) res1).
  { unfold res1. destruct cond1; auto. intros m Hm. exfalso. apply Hm. reflexivity. }
  assert (V2 : expr_in (on_list Vd) res2).
  { unfold res2. destruct cond2; auto. intros m Hm. rewrite coef_padd in Hm.
    destruct (Qc_eq_dec (coef res1 m) 0%Qc) as [E|E]; [|auto]. apply HP2. intros E'. apply Hm. rewrite E, E'. ring. }
  destruct (dual_ok res2 V2) as (z & Ez & Hz). rewrite Ez. cbn [bind].
  set (C1 := fun kap => if cond1 then Z1 kap else 0%Qc). set (C2 := fun kap => if cond2 then Z2 kap else 0%Qc).
  exists (padd r z), C1, C2. split; [reflexivity|].
  assert (X10 : expands12 (psubst (ren (hl (D1 n))) res1) (fun d1 d2 mu => if (d1 =? 1)%nat && (d2 =? 0)%nat then C1 mu else 0%Qc)).
  { unfold res1, C1. destruct cond1.
    - eapply e12_peq; [symmetry; apply psubst_q; exact I|]. exact (e12_mul 1 0 _ _ L1).
    - eapply e12_ext; [|apply e12_zero]. intros d1 d2 l. simpl. destruct (_ && _); reflexivity. }
  assert (X01 : expands12 (psubst (ren (hl (D1 n))) res2)
     (fun d1 d2 mu => ((if (d1 =? 1)%nat && (d2 =? 0)%nat then C1 mu else 0) + (if (d1 =? 0)%nat && (d2 =? 1)%nat then C2 mu else 0))%Qc)).
  { unfold res2, C2. destruct cond2.
    - eapply e12_peq; [symmetry; apply psubst_padd|]. apply e12_padd; [exact X10|].
      eapply e12_peq; [symmetry; apply psubst_q; exact I|]. exact (e12_mul 0 1 _ _ L2).
    - eapply e12_ext; [|exact X10]. intros d1 d2 l. cbv beta. destruct ((d1 =? 0)%nat && (d2 =? 1)%nat); ring. }
  split.
  { eapply e12_ext; [|apply e12_padd; [apply e12_lincl; exact Hr|eapply e12_peq; [symmetry; exact Hz|exact X01]]].
    intros [|[|d1]] [|[|d2]] l; cbv beta; simpl; ring. }
  assert (Hp1 : cond1 = true -> p <> 0) by (unfold cond1; rewrite andb_true_iff; intros [_ E]; lia).
  assert (Hp2 : cond2 = true -> p <> 0) by (unfold cond2; rewrite andb_true_iff; intros [_ E]; lia).
  split; [|split].
  - intros kap Hk. unfold C1. destruct cond1; [|reflexivity]. rewrite andb_true_l. apply (coefH_use false W Z1 kap K1 Hk); auto.
  - intros kap Hk. unfold C2. destruct cond2; [|reflexivity]. rewrite andb_true_l. apply (coefH_use true W Z2 kap K2 Hk); auto.
  - unfold C1, C2. intros kap [Hk|Hk].
    + destruct cond1; [|congruence]. apply K1; auto.
    + destruct cond2; [|congruence]. apply K2; auto.
Qed.

Lemma qpieriD1_coefs : exists r c, qpieriD_inner g p lam 1 n = Ok r /\ expands12 r c /\ quantum_D1 n p lam c.
Proof.
  assert (HL' : typed_in 1 (n + 1 - 1) (n + 1) lam) by (replace (n + 1 - 1) with n by lia; auto).
  destruct (pieriD_lincl 1 n p lam) as (r & Wr & Er & Hr & HWr); auto; try lia.
  unfold qpieriD_inner. rewrite Er. cbn [bind]. change (1 =? 0) with false. change (1 =? 1) with true. cbv iota.
  pose proof (qcondD 1 n lam ltac:(lia) ltac:(lia) HL') as Hq. replace (n + 1 - 1) with n in * by lia. rewrite Hq. cbn [bind].
  rewrite head_is_pos by lia.
  set (full := Z.of_nat (length (shape lam)) =? n).
  assert (HQ : exists r1 C1 C2, (if full then
            let lb := part_clip (map (fun x => Z.max (x - 1) 0) lam) in
            cprd <- symbol (SP lb) ;;
            cprd <- (if 1 <? Z.abs p then pieriD_inner (Z.abs p - 1) lb 0 n else Ok cprd) ;;
            cprd <- apply_lc (on_part (toSchurFromIntnMu n)) cprd ;;
            lastx <- py_get lam (-1) ;;
            res1 <- (if (0 <? lastx) && (0 <? p) then
                       z <- apply_lc (on_part (fun mu =>
                              symbol (SP (map (fun x => x + 1) mu ++ repz 1 (n - zlen mu))))) cprd ;;
                       Ok (pmul (pvar VQ1) z)
                     else Ok pzero) ;;
            res1 <- (if ((lastx =? 0) || negb (zmem 1 lam)) && ((p =? -1) || (1 <? p)) then
                       z <- apply_lc (on_part (fun mu =>
                              symbol (SP (map (fun x => x + 1) mu ++ repz 1 (n - zlen mu) ++ [0])))) cprd ;;
                       Ok (padd res1 (pmul (pvar VQ2) z))
                     else Ok res1) ;;
            z <- dualize g res1 ;;
            Ok (padd r z) else Ok r) = Ok r1 /\
   expands12 r1 (fun d1 d2 l => match d1, d2 with O, O => Wr l | 1%nat, O => C1 l | O, 1%nat => C2 l | _, _ => 0%Qc end) /\
   (forall kap, typed_in 1 n (n + 1) kap ->
      if full && cond1 && negb (type_of 1 kap =? 1) then coef_D1 n p lam (column_to_row kap) (C1 kap) else C1 kap = 0%Qc) /\
   (forall kap, typed_in 1 n (n + 1) kap ->
      if full && cond2 && negb (type_of 1 kap =? 2) then coef_D1 n p lam (column_to_row kap) (C2 kap) else C2 kap = 0%Qc) /\
   (forall kap, C1 kap <> 0%Qc \/ C2 kap <> 0%Qc -> typed_in 1 n (n + 1) kap)).
  { unfold full. destruct (Z.eqb_spec (Z.of_nat (length (shape lam))) n) as [E|E].
    - rewrite !andb_true_l. apply (qterms_ok r Wr Hr E).
    - exists r, (fun _ => 0%Qc), (fun _ => 0%Qc). split; auto. split; [|split; [|split]].
      + eapply e12_ext; [|apply e12_lincl; exact Hr]. intros [|[|d1]] [|[|d2]] l; reflexivity.
      + intros kap _. reflexivity.
      + intros kap _. reflexivity.
      + intros kap [H|H]; congruence. }
  destruct HQ as (r1 & C1 & C2 & E1 & HX & HC1 & HC2 & HCt).
  unfold cond1, cond2 in HC1, HC2. cbv zeta in E1. rewrite E1. cbn [bind].
  assert (HS0 : forall mu, Wr mu <> 0%Qc -> typed_in 1 n (n + 1) mu).
  { intros mu Hmu. apply (coef_D_supp _ _ _ _ _ _ (HWr mu)) in Hmu. destruct Hmu as (Hl & _). replace (n + 1 - 1) with n in Hl by lia. auto. }
  destruct (Z.eqb_spec (part lam 0) (n + 1)) as [Eh|Eh].
  - destruct (qstarD 1 n lam p) as (y & z & Wz & Ey & Ez & Hz & HWz); auto; try lia.
    { replace (n + 1 - 1) with n by lia. auto. }
    rewrite Ey. cbn [bind]. rewrite Ez. cbn [bind].
    exists (padd r1 (pmul q1q2 z)), (fun d1 d2 l => match d1, d2 with O, O => Wr l | 1%nat, O => C1 l | O, 1%nat => C2 l | 1%nat, 1%nat => Wz l | _, _ => 0%Qc end).
    split; [reflexivity|]. split.
    { eapply e12_ext; [|exact (e12_padd _ _ _ _ HX (e12_mul 1 1 z _ Hz))].
      intros [|[|d1]] [|[|d2]] l; cbv beta; simpl; ring. }
    unfold quantum_D1. cbv zeta. fold full. split; [auto|]. rewrite Eh, Z.eqb_refl.
    split; [intros kap Hk; specialize (HC1 kap Hk); rewrite !andb_assoc in *; auto|].
    split; [intros kap Hk; specialize (HC2 kap Hk); rewrite !andb_assoc in *; auto|]. split; [auto|].
    intros [|[|d1]] [|[|d2]] mu Hd; try congruence; (split; [lia|split; [lia|]]); auto.
    apply (coef_D_supp _ _ _ _ _ _ (HWz mu)) in Hd. destruct Hd as (Hl & _). replace (n + 1 - 1) with n in Hl by lia.
    apply (typed_tl 1 n (n + 1) (n + 1 :: mu)) in Hl; auto; lia.
  - exists r1. eexists. split; [reflexivity|]. split; [exact HX|].
    unfold quantum_D1. cbv zeta. fold full. split; [auto|]. replace (part lam 0 =? n + 1) with false by lia.
    split; [intros kap Hk; specialize (HC1 kap Hk); rewrite !andb_assoc in *; auto|].
    split; [intros kap Hk; specialize (HC2 kap Hk); rewrite !andb_assoc in *; auto|]. split; [auto|].
    intros [|[|d1]] [|[|d2]] mu Hd; try congruence; (split; [lia|split; [lia|]]); auto.
Qed.
End Main.

(** ** API *)
Lemma coef_D1_good n p lam mu c : p <> 0 -> coef_D1 n p lam mu c -> c <> 0%Qc ->
  positive_integer c /\ size mu = size (less_column (shape lam)) + Z.abs p - 1.
Proof.
  intros Hp H Hc. unfold coef_D1 in H. destruct (Z.eqb_spec (Z.abs p) 1) as [E|E].
  - destruct H as [(-> & ->)|(_ & ->)]; [|congruence]. split; [apply pos_one|lia].
  - destruct (coef_D_pos _ _ _ _ _ _ H Hc) as (A & _ & B & _). split; auto. lia.
Qed.
Lemma size_less s : is_partition s -> size (less_column s) = size s - Z.of_nat (length s).
Proof.
  intros H. rewrite less_column_strip by auto. unfold strip. rewrite size_clip. clear.
  induction s as [|x t IH]; [reflexivity|]. cbn [map]. rewrite !size_scons, IH. cbn [length]. lia.
Qed.
Lemma size_column mu : is_partition (shape mu) -> size (column_to_row mu) = size (shape mu).
Proof.
  intros H. unfold column_to_row. destruct (shape mu) eqn:E; [reflexivity|]. rewrite <- E in *. rewrite size_scons, size_less by auto. lia.
Qed.
Lemma quantum_D1_good n p lam c d1 d2 mu : 1 <= n -> typed_in 1 n (n + 1) lam -> quantum_D1 n p lam c -> c d1 d2 mu <> 0%Qc ->
  positive_integer (c d1 d2 mu) /\ size mu + Z.of_nat (d1 + d2) * (n + 1) = size lam + Z.abs p.
Proof.
  intros Hn HL (H0 & H1 & H2 & H3 & H4) Hd. cbv zeta in H1, H2.
  destruct (H4 d1 d2 mu Hd) as (A1 & A2 & Ht).
  destruct (typed_shape _ _ _ _ HL) as (((P1 & _) & _) & _). destruct (typed_shape _ _ _ _ Ht) as (((P2 & _) & _) & _).
  pose proof (size_shape _ _ _ _ HL) as S1. pose proof (size_shape _ _ _ _ Ht) as S2.
  assert (G : forall b q c0, p <> 0 -> Z.of_nat (length (shape lam)) = n -> coef_D1 n p lam (column_to_row mu) c0 -> c0 <> 0%Qc ->
     b = true -> q = 1 -> positive_integer c0 /\ size mu + q * (n + 1) = size lam + Z.abs p).
  { intros b q c0 Hp Hlen HC Hc _ ->. destruct (coef_D1_good _ _ _ _ _ Hp HC Hc) as (B1 & B2). split; auto.
    rewrite size_column, size_less in B2 by auto. lia. }
  destruct d1 as [|[|d1]]; [| |lia]; (destruct d2 as [|[|d2]]; [| |lia]).
  - destruct (coef_D_pos _ _ _ _ _ _ (H0 mu) Hd) as (A & _ & B & _). split; auto. simpl Z.of_nat. lia.
  - specialize (H2 mu Ht). destruct (_ && _) eqn:E in H2; [|congruence]. rewrite !andb_true_iff in E. destruct E as (((E1 & E2) & E3) & E4).
    eapply (G true); eauto; lia.
  - specialize (H1 mu Ht). destruct (_ && _) eqn:E in H1; [|congruence]. rewrite !andb_true_iff in E. destruct E as (((E1 & E2) & E3) & E4).
    eapply (G true); eauto; lia.
  - specialize (H3 mu). destruct (Z.eqb_spec (part lam 0) (n + 1)) as [E|E]; [|congruence].
    destruct (coef_D_pos _ _ _ _ _ _ H3 Hd) as (A & _ & B & _). split; auto.
    rewrite size_scons, (size_tl _ (n + 1)) in B by lia. change (Z.of_nat (1 + 1)) with 2. lia.
Qed.
Lemma c44_qOG_one m N g p lam : OrthogonalGrassmannian m N = Ok g -> Z.even N = true -> N <= 16 -> 1 <= m -> m = N / 2 - 1 ->
  class_OG m N lam ->
  exists r c, qpieri g p (pS lam) = Ok r /\ expands12 r c /\ quantum_D1 m p lam c /\
    positive_coefs r /\ homogeneous12 (degree_q g) (size lam + Z.abs p) r.
Proof.
  intros Hg HN H16 Hm Hk HL. unfold class_OG in HL.
  destruct (og_inv _ _ _ Hg ltac:(lia)) as [(n & EN & En & Ev & Hm' & ->)|(n & EN & En & Ev & Hm' & ->)]; rewrite Ev in HN; [discriminate|].
  rewrite Ev, En in *. assert (m = n) as -> by lia. replace (n + 1 - n) with 1 in * by lia. replace (N - 1 - n) with (n + 1) in HL by lia.
  destruct (qpieriD1_coefs n p lam ltac:(lia) HL) as (x & W & Ex & Hx & HW).
  destruct (qpieri_class (mkGr TD 1 n) p lam x Ex) as (r & Er & Hr). apply e12_peq with (r := r) in Hx; [|intros c; symmetry; apply Hr].
  exists r, W. split; auto. split; [exact Hx|]. split; auto. destruct Hx as (X1 & X2).
  change (degree_q (mkGr TD 1 n)) with (n + 1).
  split; intros q Hq; destruct (X2 q Hq) as (d1 & d2 & mu & HP); rewrite (coef_perm _ _ _ HP), X1 in Hq;
    destruct (quantum_D1_good n p lam W d1 d2 mu ltac:(lia) HL HW Hq) as (A & B).
  - rewrite (coef_perm _ _ _ HP), X1. auto.
  - exists d1, d2, mu. auto.
Qed.
