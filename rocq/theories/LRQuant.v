(** Quantum products in type A through alternating functions that are periodic
    up to sign: a quantum product is a sum over tableaux, like a product in a
    larger Grassmannian. *)

From Coq Require Import ZArith List Lia Bool Permutation QArith Qcanon Setoid Morphisms.
From Verif Require Import Py OrderFacts PyFacts ModelPart ModelQcalc ModelPoly ModelStr ModelGr Spec
  PolyFacts SuppFacts OpTheory Enum FillFacts PartFacts PieriA QPieriA CylA WSum Sys Sys2 RingA FactsA
  Transfer CommC CoefSys CommD2 Schub ConjFacts RimFacts DualSys LRCore LRSum LRMult.
Import ListNotations.
Open Scope Z_scope.

(** ** alternating functions *)
Definition pm (n : nat) : Qc := if Nat.even n then 1%Qc else (-(1))%Qc.
Lemma pm_S n : pm (S n) = (- pm n)%Qc.
Proof. unfold pm. rewrite Nat.even_succ, <- Nat.negb_even. destruct (Nat.even n); simpl; ring. Qed.
Lemma pm_sq n : (pm n * pm n)%Qc = 1%Qc.
Proof. unfold pm. destruct (Nat.even n); ring. Qed.

Lemma anti_move n G : anti n G -> forall v u a w, length (u ++ a :: v ++ w) = n ->
  G (u ++ a :: v ++ w) = (pm (length v) * G (u ++ v ++ a :: w))%Qc.
Proof.
  intros HG. induction v as [|b v IH]; intros u a w Hn.
  - cbn [app length]. unfold pm. cbn [Nat.even]. ring.
  - cbn [app] in *. rewrite (HG (length u) u b a (v ++ w)); auto.
    2:{ rewrite app_length in *. cbn [length] in *. lia. }
    replace (u ++ b :: a :: v ++ w) with ((u ++ [b]) ++ a :: v ++ w) by (rewrite <- app_assoc; reflexivity).
    rewrite IH by (rewrite <- app_assoc; cbn [app]; rewrite !app_length in *; cbn [length] in *; lia).
    rewrite <- app_assoc. cbn [app length]. rewrite pm_S. ring.
Qed.
Lemma anti_swap n G u a w b v : anti n G -> length (u ++ a :: w ++ b :: v) = n ->
  G (u ++ b :: w ++ a :: v) = (- G (u ++ a :: w ++ b :: v))%Qc.
Proof.
  intros HG Hn. rewrite !app_length in Hn. cbn [length] in Hn. rewrite app_length in Hn. cbn [length] in Hn.
  rewrite (anti_move n G HG w u b (a :: v)) by (rewrite !app_length; cbn [length]; rewrite app_length; cbn [length]; lia).
  rewrite (anti_move n G HG w u a (b :: v)) by (rewrite !app_length; cbn [length]; rewrite app_length; cbn [length]; lia).
  rewrite !app_assoc. rewrite (HG (length (u ++ w)) (u ++ w) a b v); auto; [ring|].
  rewrite !app_length. cbn [length]. lia.
Qed.

(** ** strips without a condition on the size *)
Fixpoint bx (o : Z) (l : list Z) : list (list Z) :=
  match l with
  | [] => [[]]
  | x :: l' => flat_map (fun y => map (cons y) (bx x l')) (zrange x o)
  end.
Lemma qsum_bx (f : list Z -> Qc) o x l : qsum f (bx o (x :: l)) = qsum (fun y => qsum (fun t => f (y :: t)) (bx x l)) (zrange x o).
Proof. cbn [bx]. rewrite qsum_flat_map. apply qsum_ext. intros y _. apply qsum_map. Qed.
Lemma bx_in l : forall o ys, In ys (bx o l) <-> length ys = length l /\ forall j, (j < length l)%nat -> nth j l 0 <= nth j ys 0 < nth j (o :: l) 0.
Proof.
  induction l as [|x l IH]; intros o ys; cbn [bx].
  - split.
    + intros [<-|[]]. split; auto. intros j Hj. cbn in Hj. lia.
    + intros [H _]. destruct ys; [left; auto|discriminate].
  - rewrite in_flat_map. split.
    + intros (y & Hy & H). apply in_map_iff in H. destruct H as (t & <- & Ht). apply IH in Ht. apply in_zrange in Hy. destruct Ht as [H1 H2].
      split; [cbn [length]; lia|]. intros [|j] Hj; cbn [nth]; [lia|]. apply (H2 j). cbn [length] in Hj. lia.
    + intros [H1 H2]. destruct ys as [|y ys]; [discriminate|]. exists y. split.
      * apply in_zrange. specialize (H2 O ltac:(cbn [length]; lia)). cbn [nth] in H2. lia.
      * apply in_map. apply IH. split; [cbn [length] in H1; lia|]. intros j Hj. apply (H2 (S j)). cbn [length]. lia.
Qed.
Lemma bx_nodup l : forall o, NoDup (bx o l).
Proof.
  induction l as [|x l IH]; intros o; cbn [bx]; [repeat constructor; auto|].
  pose proof (zrange_nodup x o) as Hn. induction Hn as [|y r Hy Hr IHr]; cbn [flat_map]; [constructor|].
  apply nodup_app; auto.
  - apply FinFun.Injective_map_NoDup; auto. intros a b E. inversion E; auto.
  - intros a H1 H2. apply in_map_iff in H1. destruct H1 as (t & <- & _).
    apply in_flat_map in H2. destruct H2 as (z & Hz & H2). apply in_map_iff in H2. destruct H2 as (t' & E & _). inversion E; subst; auto.
Qed.
Lemma bx_zsum l : forall o ys, In ys (bx o l) -> zsum l <= zsum ys.
Proof.
  induction l as [|x l IH]; intros o ys H; cbn [bx] in H.
  - destruct H as [<-|[]]. lia.
  - apply in_flat_map in H. destruct H as (y & Hy & H). apply in_map_iff in H. destruct H as (t & <- & Ht). apply IH in Ht. apply in_zrange in Hy.
    change (zsum (y :: t)) with (y + zsum t). change (zsum (x :: l)) with (x + zsum l). lia.
Qed.
Lemma ST_bx G l : forall u o p, ST G u o l p = qsum (fun ys => if zsum ys =? zsum l + p then G (u ++ ys) else 0%Qc) (bx o l).
Proof.
  induction l as [|x l IH]; intros u o p.
  - cbn [ST bx]. rewrite qsum_cons, qsum_nil, app_nil_r. change (zsum []) with 0. rewrite Z.eqb_sym. change (0 + p) with p.
    destruct (p =? 0); ring.
  - cbn [ST]. rewrite qsum_bx. apply qsum_ext. intros y _. rewrite IH. apply qsum_ext. intros t _.
    change (zsum (y :: t)) with (y + zsum t). change (zsum (x :: l)) with (x + zsum l). rewrite <- app_assoc. cbn [app].
    destruct (Z.eqb_spec (zsum t) (zsum l + (p - (y - x)))), (Z.eqb_spec (y + zsum t) (x + zsum l + p)); auto; lia.
Qed.
Lemma qsum_pick (f : Z -> Qc) a b c : qsum (fun y => if y =? c then f y else 0%Qc) (zrange a b) = if (a <=? c) && (c <? b) then f c else 0%Qc.
Proof.
  destruct ((a <=? c) && (c <? b)) eqn:E.
  - rewrite andb_true_iff, Z.leb_le, Z.ltb_lt in E.
    rewrite (zrange_split a c b) by lia. rewrite qsum_app. rewrite (zrange_split c (c + 1) b) by lia. rewrite qsum_app.
    rewrite (qsum_zero _ (zrange a c)), (qsum_zero _ (zrange (c + 1) b)).
    + rewrite (zrange_cons c (c + 1)), (zrange_nil (c + 1) (c + 1)), qsum_cons, qsum_nil, Z.eqb_refl by lia. ring.
    + intros y Hy. apply in_zrange in Hy. destruct (Z.eqb_spec y c); auto; lia.
    + intros y Hy. apply in_zrange in Hy. destruct (Z.eqb_spec y c); auto; lia.
  - apply qsum_zero. intros y Hy. apply in_zrange in Hy. rewrite andb_false_iff, Z.leb_gt, Z.ltb_ge in E. destruct (Z.eqb_spec y c); auto; lia.
Qed.
Lemma qsum_reflect (f : Z -> Qc) a b c :
  (forall y, f (c - y) = (- f y)%Qc) -> qsum (fun y => if (a <=? c - y) && (c - y <? b) then f y else 0%Qc) (zrange a b) = 0%Qc.
Proof.
  intros Hf. set (F := filter (fun y => (a <=? c - y) && (c - y <? b)) (zrange a b)).
  assert (E : qsum (fun y => if (a <=? c - y) && (c - y <? b) then f y else 0%Qc) (zrange a b) = qsum f F).
  { unfold F. clear. induction (zrange a b) as [|y r IH]; [reflexivity|]. rewrite qsum_cons, IH. cbn [filter].
    destruct (_ && _); [rewrite qsum_cons; ring|ring]. }
  rewrite E. apply Qc_self_opp.
  assert (HN : NoDup F) by (apply NoDup_filter, zrange_nodup).
  assert (HP : Permutation (map (fun y => c - y) F) F).
  { apply NoDup_Permutation; auto.
    - apply FinFun.Injective_map_NoDup; auto. intros x y Hxy. lia.
    - assert (HF : forall y, In y F <-> a <= y < b /\ a <= c - y < b).
      { intros y. unfold F. rewrite filter_In, in_zrange, andb_true_iff, Z.leb_le, Z.ltb_lt. lia. }
      intros y. rewrite in_map_iff. split.
      + intros (z & <- & Hz). apply HF. apply HF in Hz. lia.
      + intros Hy. exists (c - y). split; [lia|]. apply HF. apply HF in Hy. lia. }
  rewrite <- (qsum_perm f _ _ HP) at 1. rewrite qsum_map, <- qsum_opp. apply qsum_ext. intros y _. apply Hf.
Qed.

(** the last entry in one of the intervals of the other entries *)
Lemma bx_cancel n G l : anti n G -> forall u o s, length (u ++ l) = (n - 1)%nat -> (1 <= n)%nat -> sdecb (o :: l) = true ->
  qsum (fun ys => if (last (o :: l) 0 <=? s - zsum ys) && (s - zsum ys <? o) then G (u ++ ys ++ [s - zsum ys]) else 0%Qc) (bx o l) = 0%Qc.
Proof.
  intros HG. induction l as [|x l IH]; intros u o s Hn H1 Hs.
  - apply qsum_zero. intros ys _. cbn [last]. destruct (Z.leb_spec o (s - zsum ys)), (Z.ltb_spec (s - zsum ys) o); auto; lia.
  - rewrite app_length in Hn. cbn [length] in Hn.
    assert (Hx : x < o) by (apply (sdecb_head o (x :: l)); auto; left; auto).
    assert (Hl : last (x :: l) 0 <= x).
    { destruct l as [|y l]; [cbn; lia|]. apply sdecb_tl in Hs. apply Z.lt_le_incl. apply (sdecb_head x (y :: l)); auto.
      change (last (x :: y :: l) 0) with (last (y :: l) 0). rewrite (app_removelast_last 0 (l := y :: l)) at 2 by discriminate. apply in_or_app. right. left. auto. }
    change (last (o :: x :: l) 0) with (last (x :: l) 0). rewrite qsum_bx.
    transitivity (qsum (fun y => qsum (fun t => if (x <=? s - y - zsum t) && (s - y - zsum t <? o) then G (u ++ y :: t ++ [s - y - zsum t]) else 0%Qc) (bx x l)) (zrange x o) +'
      qsum (fun y => qsum (fun t => if (last (x :: l) 0 <=? s - y - zsum t) && (s - y - zsum t <? x) then G ((u ++ [y]) ++ t ++ [s - y - zsum t]) else 0%Qc) (bx x l)) (zrange x o)).
    { rewrite <- qsum_add. apply qsum_ext. intros y _. rewrite <- qsum_add. apply qsum_ext. intros t _.
      change (zsum (y :: t)) with (y + zsum t). replace (s - (y + zsum t)) with (s - y - zsum t) by lia.
      rewrite <- !app_assoc. cbn [app].
      destruct (Z.leb_spec (last (x :: l) 0) (s - y - zsum t)), (Z.ltb_spec (s - y - zsum t) o), (Z.leb_spec x (s - y - zsum t)), (Z.ltb_spec (s - y - zsum t) x); cbn [andb]; try ring; lia. }
    rewrite (qsum_zero (fun y => qsum (fun t => if (last (x :: l) 0 <=? s - y - zsum t) && (s - y - zsum t <? x) then G ((u ++ [y]) ++ t ++ [s - y - zsum t]) else 0%Qc) (bx x l)) (zrange x o)).
    2:{ intros y _. apply (IH (u ++ [y]) x (s - y)); auto; [rewrite !app_length; cbn [length]; lia|]. eapply sdecb_tl; eauto. }
    rewrite qsum_swap, (qsum_zero _ (bx x l)); [ring|]. intros t Ht. apply bx_in in Ht. destruct Ht as [Ht _].
    transitivity (qsum (fun y => if (x <=? (s - zsum t) - y) && ((s - zsum t) - y <? o) then G (u ++ y :: t ++ [(s - zsum t) - y]) else 0%Qc) (zrange x o)).
    { apply qsum_ext. intros y _. replace (s - y - zsum t) with (s - zsum t - y) by lia. reflexivity. }
    apply (qsum_reflect (fun y => G (u ++ y :: t ++ [s - zsum t - y]))). intros y.
    replace (s - zsum t - (s - zsum t - y)) with y by lia. apply (anti_swap n); auto.
    rewrite !app_length. cbn [length]. rewrite app_length. cbn [length]. lia.
Qed.

(** ** values of polynomials, [q] replaced by 1 *)
Definition noq (v : var) : bool := match v with VQ => false | _ => true end.
Definition wvq (W : list Z -> Qc) (mo : mono) : Qc := wval W (filter noq mo).
Lemma wvq_inv W : perm_inv (wvq W).
Proof. intros a b HP. unfold wvq. apply wval_inv, filter_perm; auto. Qed.
Lemma wvq_qS W e l : wvq W (qS e l) = W l.
Proof.
  unfold wvq, qS. replace (filter noq (vS l :: repeat VQ e)) with [vS l]; [reflexivity|].
  cbn [filter noq vS]. f_equal. induction e as [|e IH]; [reflexivity|]. exact IH.
Qed.

Section Q.
Variables m k : Z.
Hypothesis Hm : 1 <= m.
Hypothesis Hk : 0 <= k.
Notation Mn := (Z.to_nat m).
Notation VB := (in_box m k).
Notation pi := (piA m k true).
Notation MM := (M TA pi k (giam_fuel (gA m k))).
Notation lq := (supp (linm VB (eq VQ))).
Notation sys := (sysA m k Hm Hk true).
Let sg : Qc := pm (Mn - 1).

Definition goodq (G : list Z -> Qc) : Prop :=
  anti Mn G /\ forall u x v, length (u ++ x :: v) = Mn -> G (u ++ (x + (m + k)) :: v) = (sg * G (u ++ x :: v))%Qc.
Definition evq (G : list Z -> Qc) (p : poly) : Qc := phi (wvq (val m G)) p.

Lemma evq_peq G p r : peq p r -> evq G p = evq G r.
Proof. intros E. apply phi_peq; auto. apply wvq_inv. Qed.
Lemma evq_padd G p r : evq G (padd p r) = (evq G p + evq G r)%Qc.
Proof. apply phi_padd, wvq_inv. Qed.
Lemma evq_pscale G c p : evq G (pscale c p) = (c * evq G p)%Qc.
Proof. apply phi_pscale. Qed.
Lemma evq_pS G l : evq G (pS l) = val m G l.
Proof. unfold evq, pS, pvar. cbn [phi fold_right fst snd]. change [vS l] with (qS 0 l). rewrite wvq_qS. ring. Qed.
Lemma evq_q G e p : evq G (pmul (pmono (repeat VQ e)) p) = evq G p.
Proof.
  unfold evq. rewrite phi_pmul by apply wvq_inv. cbn [pmono phi fold_right fst snd]. rewrite Qcplus_0_r, Qcmult_1_l.
  apply phi_ext. intros mo c _. unfold wvq. rewrite filter_app. f_equal. induction e; auto.
Qed.

Lemma wrap G y ys : goodq G -> length (y :: ys) = Mn -> G (y :: ys) = G (ys ++ [y - (m + k)]).
Proof.
  intros [HA HP] Hl. replace y with (y - (m + k) + (m + k)) at 1 by lia.
  pose proof (HP [] (y - (m + k)) ys) as H. cbn [app] in H. rewrite H by (cbn [length] in *; auto).
  pose proof (anti_move Mn G HA ys [] (y - (m + k)) []) as H2. cbn [app] in H2. rewrite !app_nil_r in H2. rewrite H2 by (cbn [length] in *; auto).
  unfold sg. cbn [length] in Hl. replace (Mn - 1)%nat with (length ys) by lia.
  transitivity ((pm (length ys) * pm (length ys)) * G (ys ++ [(y - (m + k))%Z]))%Qc; [ring|]. rewrite pm_sq. ring.
Qed.

Definition QE (i : Z) (lam : list Z) : list (list Z) :=
  filter (fun mu => (zlen (part_clip lam) =? m) && qintb (part_clip lam) mu && (zsum mu =? zsum lam + i - (m + k))) (alll Mn k).
Lemma EA_true i lam : EA m k true i lam = EA m k false i lam ++ map (fun mu => (1%nat, mu)) (QE i lam).
Proof. unfold EA. rewrite app_nil_r. reflexivity. Qed.
Lemma QE_in i lam mu : wbox m k lam -> (In mu (QE i lam) <-> zlen (part_clip lam) = m /\ qint (part_clip lam) mu /\ zsum mu = zsum lam + i - (m + k)).
Proof.
  intros Hl. pose proof (EA_in m k Hm Hk true i lam 1 mu Hl) as H. rewrite EA_true, in_app_iff in H. split.
  - intros Hi. destruct (proj1 H) as [(? & _)|(_ & _ & H2)]; [right; apply in_map; auto|discriminate|tauto].
  - intros Hi. destruct (proj2 H) as [H2|H2]; [right; tauto| |].
    + apply (EA_in m k Hm Hk false i lam 1 mu Hl) in H2. destruct H2 as [(? & _)|(? & _)]; discriminate.
    + apply in_map_iff in H2. destruct H2 as (x & E & Hx). inversion E; subst; auto.
Qed.

Lemma rho_nth n : forall j, (j < n)%nat -> nth j (rho n) 0 = Z.of_nat n - 1 - Z.of_nat j.
Proof. induction n as [|n IH]; intros [|j] Hj; cbn [rho nth]; try lia. rewrite IH; lia. Qed.
Lemma zsum_vadd a : forall b, length a = length b -> zsum (vadd a b) = zsum a + zsum b.
Proof.
  induction a as [|x a IH]; intros [|y b] H; try discriminate; [reflexivity|]. cbn [vadd].
  change (zsum (x + y :: vadd a b)) with (x + y + zsum (vadd a b)). change (zsum (x :: a)) with (x + zsum a). change (zsum (y :: b)) with (y + zsum b).
  cbn [length] in H. rewrite IH by lia. lia.
Qed.
Lemma vadd_inj a : forall b c, length a = length b -> length a = length c -> vadd a b = vadd a c -> b = c.
Proof.
  induction a as [|x a IHa]; intros [|y b] [|z c] H1 H2 H3; cbn [length vadd] in *; try discriminate; auto.
  injection H3 as H3 H4. f_equal; [lia|]. apply IHa; auto.
Qed.

(** the terms with [q] of the quantum Pieri rule *)
Lemma QE_sum G i l x t : VB l -> vadd (rho Mn) (padm m l) = x :: t ->
  qsum (fun mu => G (vadd (rho Mn) mu)) (QE i (padm m l)) =
  qsum (fun ys => if (0 <=? x + zsum t + i - (m + k) - zsum ys) && (x + zsum t + i - (m + k) - zsum ys <? last (x :: t) 0) then G (ys ++ [x + zsum t + i - (m + k) - zsum ys]) else 0%Qc) (bx x t).
Proof.
  intros Hl EX. set (s := x + zsum t + i - (m + k)).
  pose proof (in_box_wbox _ _ _ Hl) as Wl. pose proof (padm_len m k Hm l Hl) as Ll.
  set (F := filter (fun ys => (0 <=? s - zsum ys) && (s - zsum ys <? last (x :: t) 0)) (bx x t)).
  transitivity (qsum (fun ys => G (ys ++ [s - zsum ys])) F).
  2:{ unfold F. clear. induction (bx x t) as [|y r IH]; [reflexivity|]. rewrite qsum_cons, <- IH. cbn [filter].
      destruct (_ && _); [rewrite qsum_cons; ring|ring]. }
  transitivity (qsum G (map (vadd (rho Mn)) (QE i (padm m l)))); [symmetry; apply qsum_map|].
  transitivity (qsum G (map (fun ys => ys ++ [s - zsum ys]) F)); [|apply qsum_map].
  assert (LX : length (x :: t) = Mn) by (rewrite <- EX, vadd_len; rewrite rho_len; auto).
  assert (NX : forall j, (j < Mn)%nat -> nth j (x :: t) 0 = Z.of_nat Mn - 1 - Z.of_nat j + part l j).
  { intros j Hj. rewrite <- EX, nth_vadd, rho_nth by (rewrite ?rho_len; auto). change (nth j (padm m l) 0) with (part (padm m l) j). rewrite part_padm. auto. }
  assert (SX : x + zsum t = zsum (rho Mn) + zsum (padm m l)).
  { rewrite <- zsum_vadd by (rewrite rho_len; auto). rewrite EX. reflexivity. }
  assert (LQ : forall mu, In mu (QE i (padm m l)) -> length mu = Mn).
  { intros mu H. unfold QE in H. apply filter_In in H. destruct H as [H _]. apply in_alll in H. tauto. }
  apply qsum_perm. apply NoDup_Permutation.
  - assert (HN : NoDup (QE i (padm m l))) by (apply NoDup_filter, alll_nodup).
    clear -HN LQ. induction HN as [|mu r Hmu Hr IH]; cbn [map]; constructor.
    + intros Hi. apply in_map_iff in Hi. destruct Hi as (nu & E & Hnu). apply vadd_inj in E; [subst; auto| |];
        rewrite rho_len, LQ; auto; [right|left]; auto.
    + apply IH. intros; apply LQ; right; auto.
  - apply FinFun.Injective_map_NoDup; [|apply NoDup_filter, bx_nodup]. intros a b E. apply app_inj_tail in E. tauto.
  - intros y. rewrite !in_map_iff.
    assert (HL : last (x :: t) 0 = nth (Mn - 1) (x :: t) 0).
    { rewrite <- LX. clear. revert x. induction t as [|y t IH]; intros x; [reflexivity|].
      change (last (x :: y :: t) 0) with (last (y :: t) 0). rewrite IH. cbn [length]. replace (S (S (length t)) - 1)%nat with (S (S (length t) - 1)) by lia. reflexivity. }
    split.
    + intros (mu & <- & Hmu). pose proof (LQ mu Hmu) as Lmu. apply QE_in in Hmu; auto. rewrite (clip_padm m k) in Hmu by auto.
      destruct Hmu as (H1 & H2 & H3). rewrite (qint_part m Hm) in H2 by auto. destruct H2 as (_ & A & B & C).
      set (y := vadd (rho Mn) mu). assert (Ly : length y = Mn) by (unfold y; rewrite vadd_len; rewrite rho_len; auto).
      assert (NY : forall j, (j < Mn)%nat -> nth j y 0 = Z.of_nat Mn - 1 - Z.of_nat j + part mu j).
      { intros j Hj. unfold y. rewrite nth_vadd, rho_nth by (rewrite ?rho_len; auto). reflexivity. }
      assert (SY : zsum y = s) by (unfold y, s; rewrite zsum_vadd by (rewrite rho_len; auto); lia).
      assert (EY : y = removelast y ++ [last y 0]) by (apply app_removelast_last; intros E; rewrite E in Ly; simpl in Ly; lia).
      assert (Lr : length (removelast y) = (Mn - 1)%nat) by (apply (f_equal (@length Z)) in EY; rewrite app_length in EY; cbn [length] in EY; lia).
      assert (LY : last y 0 = nth (Mn - 1) y 0) by (rewrite EY at 2; rewrite app_nth2 by lia; rewrite Lr, Nat.sub_diag; reflexivity).
      assert (ZY : last y 0 = s - zsum (removelast y)).
      { rewrite <- SY. rewrite EY at 2. rewrite zsum_app. change (zsum [last y 0]) with (last y 0 + 0). lia. }
      exists (removelast y). rewrite <- ZY. split; auto. unfold F. apply filter_In. rewrite bx_in, andb_true_iff, Z.leb_le, Z.ltb_lt, <- ZY.
      cbn [length] in LX. split.
      * split; [lia|]. intros j Hj. assert (Ej : nth j (removelast y) 0 = nth j y 0) by (rewrite EY at 2; rewrite app_nth1 by lia; auto).
        rewrite Ej, NY by lia. rewrite (NX j) by lia. change (nth j t 0) with (nth (S j) (x :: t) 0). rewrite (NX (S j)) by lia.
        specialize (A j ltac:(lia)). specialize (B j ltac:(lia)). lia.
      * rewrite HL, LY, NY, NX by lia. replace (Z.to_nat (m - 1)) with (Mn - 1)%nat in C by lia. specialize (A (Mn - 1)%nat ltac:(lia)). lia.
    + intros (ys & <- & Hys). unfold F in Hys. apply filter_In in Hys. rewrite bx_in, andb_true_iff, Z.leb_le, Z.ltb_lt in Hys.
      destruct Hys as ([L1 H1] & H2 & H3). cbn [length] in LX. rewrite HL, NX in H3 by lia.
      set (y := ys ++ [s - zsum ys]). assert (Ly : length y = Mn) by (unfold y; rewrite app_length; cbn [length]; lia).
      set (mu := map (fun j => nth j y 0 - (Z.of_nat Mn - 1 - Z.of_nat j)) (seq 0 Mn)).
      assert (Lmu : length mu = Mn) by (unfold mu; rewrite map_length, seq_length; auto).
      assert (Nmu : forall j, (j < Mn)%nat -> part mu j = nth j y 0 - (Z.of_nat Mn - 1 - Z.of_nat j)).
      { intros j Hj. unfold part, mu. rewrite (nth_indep _ 0 ((fun j => nth j y 0 - (Z.of_nat Mn - 1 - Z.of_nat j)) O)) by (rewrite map_length, seq_length; auto).
        rewrite (map_nth (fun j => nth j y 0 - (Z.of_nat Mn - 1 - Z.of_nat j))), seq_nth by auto. reflexivity. }
      assert (EY : vadd (rho Mn) mu = y).
      { apply nth_ext with (d := 0) (d' := 0); [rewrite vadd_len; rewrite rho_len; lia|]. rewrite vadd_len by (rewrite rho_len; auto). rewrite rho_len. intros j Hj.
        rewrite nth_vadd, rho_nth by (rewrite ?rho_len; auto). change (nth j mu 0) with (part mu j). rewrite Nmu by auto. lia. }
      assert (YL : nth (Mn - 1) y 0 = s - zsum ys) by (unfold y; rewrite app_nth2 by lia; rewrite L1; replace (Mn - 1 - length t)%nat with 0%nat by lia; reflexivity).
      assert (YJ : forall j, (j < length t)%nat -> nth j y 0 = nth j ys 0) by (intros j Hj; unfold y; rewrite app_nth1 by lia; auto).
      assert (A : forall j, Z.of_nat j < m -> part mu j <= part l j - 1).
      { intros j Hj. rewrite Nmu by lia. destruct (Nat.eq_dec j (Mn - 1)) as [->|Hne]; [rewrite YL; lia|].
        rewrite YJ by lia. specialize (H1 j ltac:(lia)). rewrite (NX j) in H1 by lia. lia. }
      assert (B : forall j, Z.of_nat j + 1 < m -> part l (S j) - 1 <= part mu j).
      { intros j Hj. rewrite Nmu, YJ by lia. specialize (H1 j ltac:(lia)). change (nth j t 0) with (nth (S j) (x :: t) 0) in H1. rewrite (NX (S j)) in H1 by lia. lia. }
      assert (C : 0 <= part mu (Z.to_nat (m - 1))).
      { replace (Z.to_nat (m - 1)) with (Mn - 1)%nat by lia. rewrite Nmu, YL by lia. lia. }
      assert (Hz : zlen l = m).
      { specialize (A (Z.to_nat (m - 1)) ltac:(lia)).
        pose proof (clip_full m k (padm m l) Wl) as Hc. rewrite part_padm, (clip_padm m k) in Hc by auto. apply Hc. lia. }
      exists mu. split; auto. apply QE_in; auto. rewrite (clip_padm m k) by auto. split; auto. split.
      * apply (qint_part m Hm); auto. unfold zlen. rewrite Lmu. split; [lia|auto].
      * assert (ZS : zsum y = s) by (unfold y; rewrite zsum_app; change (zsum [s - zsum ys]) with (s - zsum ys + 0); lia).
        rewrite <- EY, zsum_vadd in ZS by (rewrite rho_len; auto). unfold s in ZS. lia.
Qed.

(** a quantum Pieri operator acts like the sum over compositions *)
Lemma evq_P G i l : goodq G -> IA k i -> VB l -> evq G (P pi i l) = val m (hsum Mn i G) l.
Proof.
  intros HG Hi Hl. pose proof HG as [HA HB]. unfold evq.
  rewrite (phi_peq _ _ _ (wvq_inv _) (P_enum m k Hm Hk true i l Hl (IA_dom k true i Hi))).
  rewrite phi_msum. change (fold_right (fun x y => (wvq (val m G) x + y)%Qc) 0%Qc (map qterm (EA m k true i (padm m l)))) with (qsum (wvq (val m G)) (map qterm (EA m k true i (padm m l)))).
  rewrite qsum_map. pose proof (in_box_wbox _ _ _ Hl) as Wl.
  transitivity (qsum (fun x => G (vadd (rho Mn) (snd x))) (EA m k true i (padm m l))).
  { apply qsum_ext. intros [d ka] Hx. pose proof (EA_wbox m k Hm Hk true i (padm m l) _ Wl Hx) as Wx. cbn [snd] in Wx.
    unfold qterm. cbn [fst snd]. rewrite wvq_qS. unfold val. rewrite (wbox_padm_clip m k); auto. }
  rewrite EA_true, qsum_app, qsum_map. cbn [snd]. rewrite (EA_ST m k Hm Hk) by auto.
  unfold val. pose proof (rho_padm_sdec m k Hm l Hl) as Hs. pose proof (rho_padm_len m k Hm l Hl) as Hn.
  destruct (rho_padm_head m k Hm l Hl) as (x & t & EX & Hx). rewrite (QE_sum G i l x t Hl EX). rewrite EX in *.
  unfold IA in Hi. rewrite hsum_strip by (auto; lia). cbn [ST app].
  rewrite <- (qsum_zrange_zero _ x (x + i + 1) (Z.max (k + m) (x + i + 1))); [|lia|intros y Hy; apply ST_neg; lia].
  rewrite (zrange_split x (k + m) (Z.max (k + m) (x + i + 1))) by lia. rewrite qsum_app. f_equal. symmetry.
  set (s := x + zsum t + i - (m + k)).
  transitivity (qsum (fun ys => if 0 <=? s - zsum ys then G (ys ++ [s - zsum ys]) else 0%Qc) (bx x t)).
  { transitivity (qsum (fun y => qsum (fun ys => if y =? s - zsum ys + (m + k) then G (y :: ys) else 0%Qc) (bx x t)) (zrange (k + m) (Z.max (k + m) (x + i + 1)))).
    { apply qsum_ext. intros y _. rewrite ST_bx. apply qsum_ext. intros ys _. cbn [app]. unfold s.
      destruct (Z.eqb_spec (zsum ys) (zsum t + (i - (y - x)))), (Z.eqb_spec y (x + zsum t + i - (m + k) - zsum ys + (m + k))); auto; lia. }
    rewrite qsum_swap. apply qsum_ext. intros ys Hys. pose proof (bx_zsum _ _ _ Hys) as Hz. apply bx_in in Hys. destruct Hys as [Ly _].
    rewrite (qsum_pick (fun y => G (y :: ys))). rewrite wrap by (auto; cbn [length] in *; lia).
    replace (s - zsum ys + (m + k) - (m + k)) with (s - zsum ys) by lia.
    destruct (Z.leb_spec (k + m) (s - zsum ys + (m + k))), (Z.ltb_spec (s - zsum ys + (m + k)) (Z.max (k + m) (x + i + 1))), (Z.leb_spec 0 (s - zsum ys)); cbn [andb]; auto; unfold s in *; lia. }
  transitivity (qsum (fun ys => if (0 <=? s - zsum ys) && (s - zsum ys <? last (x :: t) 0) then G (ys ++ [s - zsum ys]) else 0%Qc) (bx x t) +'
    qsum (fun ys => if (last (x :: t) 0 <=? s - zsum ys) && (s - zsum ys <? x) then G ([] ++ ys ++ [s - zsum ys]) else 0%Qc) (bx x t)).
  { assert (H0 : 0 <= last (x :: t) 0).
    { assert (Hin : In (last (x :: t) 0) (vadd (rho Mn) (padm m l))).
      { rewrite EX. rewrite (app_removelast_last 0 (l := x :: t)) at 2 by discriminate. apply in_or_app. right. left. auto. }
      destruct (In_nth _ _ 0 Hin) as (j & Hj & <-). rewrite EX, Hn in Hj. rewrite nth_vadd, rho_nth by (rewrite ?rho_len, ?(padm_len m k); auto).
      change (nth j (padm m l) 0) with (part (padm m l) j). rewrite part_padm. pose proof (is_partition_nonneg l j (proj1 Hl)). lia. }
    rewrite <- qsum_add. apply qsum_ext. intros ys Hys. pose proof (bx_zsum _ _ _ Hys) as Hz. cbn [app].
    destruct (Z.leb_spec 0 (s - zsum ys)), (Z.ltb_spec (s - zsum ys) (last (x :: t) 0)), (Z.leb_spec (last (x :: t) 0) (s - zsum ys)), (Z.ltb_spec (s - zsum ys) x); cbn [andb]; try ring; unfold s in *; lia. }
  rewrite (bx_cancel Mn G t HA []); [ring| | |auto]; cbn [app length] in *; lia.
Qed.

Lemma quasi_vadd G u x v b : goodq G -> length (u ++ x :: v) = Mn -> length b = Mn ->
  G (vadd (u ++ (x + (m + k)) :: v) b) = (sg * G (vadd (u ++ x :: v) b))%Qc.
Proof.
  intros [_ HP] Hl Hb. rewrite app_length in Hl. cbn [length] in Hl.
  assert (EB : exists b1 y b2, b = b1 ++ y :: b2 /\ length b1 = length u /\ length b2 = length v).
  { exists (firstn (length u) b). destruct (skipn (length u) b) as [|y b2] eqn:E.
    - apply (f_equal (@length Z)) in E. rewrite skipn_length in E. cbn in E. lia.
    - exists y, b2. split; [rewrite <- E; symmetry; apply firstn_skipn|]. split; [apply firstn_length_le; lia|].
      apply (f_equal (@length Z)) in E. rewrite skipn_length in E. cbn [length] in E. lia. }
  destruct EB as (b1 & y & b2 & -> & L1 & L2).
  assert (VA : forall a c, vadd (u ++ a :: v) (b1 ++ c :: b2) = vadd u b1 ++ (a + c) :: vadd v b2).
  { intros a c. clear -L1. revert b1 L1. induction u as [|z u IH]; intros [|w b1] L1; try discriminate; [reflexivity|]. cbn [app vadd length] in *. f_equal. apply IH. lia. }
  rewrite !VA. replace (x + (m + k) + y) with (x + y + (m + k)) by lia. apply HP.
  rewrite app_length. cbn [length]. rewrite !vadd_len by lia. lia.
Qed.
Lemma goodq_hsum i G : goodq G -> goodq (hsum Mn i G).
Proof.
  intros HG. split; [apply hsum_anti, HG|]. intros u x v Hl. unfold hsum. rewrite <- qsum_mul. apply qsum_ext. intros b Hb.
  apply in_alll in Hb. destruct (zsum b =? i); [|ring]. apply quasi_vadd; tauto.
Qed.
Lemma goodq_V G L : goodq G -> goodq (V Mn G L (repeat 0 Mn)).
Proof.
  intros HG. split; [apply V_anti, HG|]. generalize (repeat 0 Mn). induction L as [|s L IH]; intros d u x v Hl; [apply HG; auto|].
  rewrite !V_cons, <- qsum_mul. apply qsum_ext. intros c Hc. apply bits_len in Hc. destruct (_ && _); [|ring].
  assert (EB : exists b1 y b2, c = b1 ++ y :: b2 /\ length b1 = length u /\ length b2 = length v).
  { rewrite app_length in Hl. cbn [length] in Hl. exists (firstn (length u) c). destruct (skipn (length u) c) as [|y b2] eqn:E.
    - apply (f_equal (@length Z)) in E. rewrite skipn_length in E. cbn in E. lia.
    - exists y, b2. split; [rewrite <- E; symmetry; apply firstn_skipn|]. split; [apply firstn_length_le; lia|].
      apply (f_equal (@length Z)) in E. rewrite skipn_length in E. cbn [length] in E. lia. }
  destruct EB as (b1 & y & b2 & E & L1 & L2).
  assert (VA : forall a, vadd (u ++ a :: v) c = vadd u b1 ++ (a + y) :: vadd v b2).
  { intros a. rewrite E. clear -L1. revert b1 L1. induction u as [|z u IH]; intros [|w b1] L1; try discriminate; [reflexivity|]. cbn [app vadd length] in *. f_equal. apply IH. lia. }
  rewrite !VA. replace (x + (m + k) + y) with (x + y + (m + k)) by lia. apply IH.
  rewrite app_length in *. cbn [length] in *. rewrite !vadd_len by lia. lia.
Qed.

Lemma evq_ext G i p : goodq G -> IA k i -> lq p -> evq G (ext pi i p) = evq (hsum Mn i G) p.
Proof.
  intros HG Hi. revert p. apply (lin_ind VB (eq VQ) (fun p => evq G (ext pi i p) = evq (hsum Mn i G) p)).
  - intros p r E Hp. rewrite <- (evq_peq _ p r E), <- Hp. apply evq_peq, ext_proper. symmetry; auto.
  - reflexivity.
  - intros qm x c p Hx Hq Hl IH.
    assert (E : peq (ext pi i (padd (pscale c (pmul (pmono qm) (pS x))) p)) (padd (pscale c (pmul (pmono qm) (P pi i x))) (ext pi i p))).
    { rewrite ext_padd, ext_pscale, (ext_qmul pi (eq VQ) eqVQ_isqv), ext_pS; auto. reflexivity. }
    rewrite (evq_peq _ _ _ E), !evq_padd, !evq_pscale, IH. f_equal. f_equal.
    rewrite (allQ qm Hq), !evq_q. rewrite evq_pS. apply evq_P; auto.
Qed.
Lemma comb_lrq (W : list Z -> Prop) G lam a : (forall l, W l -> VB l) -> VB lam ->
  (forall l, W l -> evq G (MM (pS l) (pS lam)) = val m (tsum m G lam) l) -> supp (linm W (eq VQ)) a ->
  evq G (MM a (pS lam)) = evq (tsum m G lam) a.
Proof.
  intros HW Hlam HS. revert a. apply (lin_ind W (eq VQ)).
  - intros a b E Ha. rewrite <- (evq_peq _ a b E), <- Ha. apply evq_peq. apply M_peq; [symmetry; auto|reflexivity].
  - rewrite (evq_peq _ (MM pzero (pS lam)) pzero) by (apply (@sys_zero_l TA pi VB); apply sys_lq_pS; auto). reflexivity.
  - intros qm l c a Hl Hq Ha IH.
    assert (HlV : lq (pS l)) by (apply sys_lq_pS; auto).
    assert (HaV : lq a) by (eapply supp_impl; [|exact Ha]; intros mo (x & q & Hx & Hr' & Hq'); exists x, q; auto).
    assert (HqV : lq (pmul (pmono qm) (pS l))) by (apply (lin_qmul VB (eq VQ)); auto).
    assert (Hb : lq (pS lam)) by (apply sys_lq_pS; auto).
    assert (E : peq (MM (padd (pscale c (pmul (pmono qm) (pS l))) a) (pS lam)) (padd (pscale c (pmul (pmono qm) (MM (pS l) (pS lam)))) (MM a (pS lam)))).
    { rewrite (sys_add_l sys), (sys_scale_l sys), (sys_q_l sys); auto using (@sys_lq_vp VB), (@supp_pscale (linm VB (eq VQ))). reflexivity. }
    rewrite (evq_peq _ _ _ E), !evq_padd, !evq_pscale, IH. f_equal. f_equal.
    rewrite (allQ qm Hq), !evq_q. rewrite HS, evq_pS; auto.
Qed.

Theorem lrq_main mu : VB mu -> forall G lam, goodq G -> VB lam -> evq G (MM (pS mu) (pS lam)) = val m (tsum m G lam) mu.
Proof.
  remember (muA k mu) as N eqn:EN. revert mu EN. induction N as [N IH] using (well_founded_induction Wf_nat.lt_wf). intros mu -> Hmu G lam HG Hlam.
  destruct (list_eq_dec Z.eq_dec mu []) as [->|Hne].
  { rewrite (evq_peq _ _ (pS lam)) by (apply (sys_unit sys); apply sys_lq_pS; auto). rewrite evq_pS. unfold val, tsum.
    replace (padm m []) with (repeat 0 Mn) by (unfold padm, zlen; simpl; rewrite Z.sub_0_r; reflexivity).
    rewrite <- ones_0. pose proof (V_base Mn G (proj1 HG) (cols lam) 0 (repeat 0 Mn)) as HV.
    rewrite <- ones_0 in HV. rewrite HV.
    - rewrite ones_0, (vadd_zeros Mn (rho Mn)) by apply rho_len. rewrite (Lones_cols m k); auto. lia.
    - apply ones_len.
    - intros t _. rewrite ones_0. apply nth_repeat.
    - rewrite ones_0. rewrite (vadd_zeros Mn (rho Mn)) by apply rho_len.
      replace (rho Mn) with (vadd (rho Mn) (repeat 0 Mn)) by (apply vadd_zeros, rho_len). apply (rho_sdec Mn _ 0); [apply repeat_length|].
      clear. induction Mn; simpl; auto. split; [lia|auto].
    - intros a b i Ha Hb. destruct Hlam as (Hp & Hl & _). pose proof (cols_mono lam Hp a b i Ha Hb). lia. }
  assert (Hb : lq (pS lam)) by (apply sys_lq_pS; auto).
  destruct (sys_rec sys mu (pS lam) Hmu Hb Hne) as (i & l0 & Hg & Hi & (Hl0 & Hmm) & HS & E1).
  assert (HL0 : lq (pS l0)) by (apply sys_lq_pS; auto).
  assert (ES : forall a b, peq (psub a b) (padd a (pscale (-(1))%Qc b))).
  { intros x y mo. rewrite coef_psub, coef_padd, coef_pscale. ring. }
  rewrite (evq_peq _ _ _ E1), (evq_peq _ _ _ (ES _ _)), evq_padd, evq_pscale.
  rewrite evq_ext; auto; [|apply (sys_lin sys); auto using (@sys_lq_vp VB)].
  rewrite (IH (muA k l0) Hmm l0 eq_refl Hl0 _ lam (goodq_hsum i G HG) Hlam).
  rewrite (comb_lrq (below VB (muA k) mu) G lam); auto.
  - rewrite (evq_peq _ _ _ (ES _ _)), evq_padd, evq_pscale, evq_pS. rewrite evq_P; auto; [|apply goodq_V; auto].
    replace (val m (tsum m (hsum Mn i G) lam) l0) with (val m (hsum Mn i (tsum m G lam)) l0) by (unfold val, tsum; apply hsum_V).
    unfold tsum. ring.
  - intros l [Hl _]; auto.
  - intros l [Hl Hml]. apply (IH (muA k l) Hml l eq_refl Hl); auto.
Qed.

(** ** comparison with the product in a larger Grassmannian *)
Definition cut (B : Z) (G : list Z -> Qc) (g : list Z) : Qc := if forallb (fun x => x <? B) g then G g else 0%Qc.
Lemma cut_good B G K : anti Mn G -> B = m + K -> good m K (cut B G).
Proof.
  intros HA ->. split.
  - intros n u a b v Hu Hl. unfold cut.
    assert (E : forallb (fun x => x <? m + K) (u ++ b :: a :: v) = forallb (fun x => x <? m + K) (u ++ a :: b :: v)).
    { rewrite !forallb_app. cbn [forallb]. f_equal. destruct (b <? m + K), (a <? m + K); auto. }
    rewrite E. destruct (forallb (fun x => x <? m + K) (u ++ a :: b :: v)); [apply (HA n); auto|ring].
  - intros g x Hg Hx HB. unfold cut. destruct (forallb _ g) eqn:E; auto. rewrite forallb_forall in E. specialize (E x Hx). lia.
Qed.
Lemma V_cut B G L : forall d g, (forall x, In x g -> x + Z.of_nat (length L) < B) -> length g = Mn -> V Mn (cut B G) L d g = V Mn G L d g.
Proof.
  induction L as [|s L IH]; intros d g H Hg.
  - cbn [V]. unfold cut. rewrite (proj2 (forallb_forall _ g)); auto. intros x Hx. specialize (H x Hx). cbn in H. lia.
  - rewrite !V_cons. apply qsum_ext. intros c Hc. destruct (_ && _); auto.
    apply in_alll in Hc. destruct Hc as [Lc Fc]. apply IH; [|rewrite vadd_len; lia].
    intros x Hx. destruct (In_nth _ _ 0 Hx) as (j & Hj & <-). rewrite vadd_len in Hj by lia. rewrite nth_vadd by lia.
    specialize (H (nth j g 0) ltac:(apply nth_In; lia)). cbn [length] in H.
    rewrite Forall_forall in Fc. specialize (Fc (nth j c 0) ltac:(apply nth_In; lia)). lia.
Qed.

Theorem quantum_classical G lam mu K : goodq G -> VB lam -> VB mu -> 2 * k <= K ->
  evq G (MM (pS mu) (pS lam)) = ev m (cut (m + K) G) (M TA (piA m K false) K (giam_fuel (gA m K)) (pS mu) (pS lam)).
Proof.
  intros HG Hl Hmu HK.
  assert (BX : forall l, VB l -> in_box m K l).
  { intros l (H1 & H2 & H3). split; auto. split; [auto|lia]. }
  rewrite lrq_main by auto. rewrite (lr_main m K Hm) by (auto; try lia; apply cut_good; auto; apply HG).
  unfold val, tsum. symmetry. apply V_cut; [|apply (rho_padm_len m k); auto].
  intros x Hx. destruct (In_nth _ _ 0 Hx) as (j & Hj & <-). rewrite (rho_padm_len m k Hm mu Hmu) in Hj.
  rewrite nth_vadd, rho_nth by (rewrite ?rho_len, ?(padm_len m k); auto).
  change (nth j (padm m mu) 0) with (part (padm m mu) j). rewrite part_padm. rewrite map_length. unfold cols. rewrite map_length, rev_length, length_zrange.
  destruct Hmu as (Hp & _ & H3). destruct Hl as (_ & _ & H4).
  assert (part mu j <= part mu 0) by (apply (decp_part_le (part mu 0)); [apply is_partition_nonneg; auto|apply part_decp; auto]). lia.
Qed.
End Q.
