(** OG(n+1-k,2n+2), 1 <= k <= n, as an instance of Sys.v. *)

From Coq Require Import ZArith List Lia Bool Permutation QArith Qcanon.
From Verif Require Import Py OrderFacts PyFacts ModelPart ModelQcalc ModelPoly ModelStr ModelGr Spec SpecPieri
  PolyFacts SuppFacts Enum FillFacts PartFacts ConjFacts PairFacts CompsFacts CompsBound PieriA QPieriA WSum PieriCoef PieriD QPieriD
  OpTheory Sys Word Transfer Extract CoefSys CommC RecBCD RingC CommB RingB ApiPieriQ WordD CoefD CommD CommD2.
Import ListNotations.
Open Scope Z_scope.

Definition gD (k n : Z) : gr := mkGr TD k n.
Definition piD (k n : Z) (qq : bool) : Z -> list Z -> res poly := if qq then qpieri_fun (gD k n) else pieri_fun (gD k n).
Definition okD (qq : bool) (k n : Z) : Prop := 1 <= k <= n /\ (qq = true -> 2 <= k).
Definition ID (k n i : Z) : Prop := 1 <= i <= n + k \/ i = - k.

Lemma kstrict_row1' k r c i : 0 <= k -> 1 <= r -> 1 <= i <= c -> kstrict_in k r c [i].
Proof.
  intros Hk Hr Hi. split; [split; [split|split]|].
  - intros [|j] Hj; unfold part; cbn in *; lia.
  - intros [|[|j]]; unfold part; cbn; lia.
  - cbn. lia.
  - unfold part. cbn. lia.
  - intros [|[|j]]; unfold part; cbn; lia.
Qed.

Section RD.
Variables (k n : Z) (qq : bool).
Hypothesis Hok : okD qq k n.
Notation V := (typed_in k (n + 1 - k) (n + k)).
Notation ws := (wset k (n + 1)).
Notation mu := (muM (n + k)).

Lemma piD_coefs p lam : V lam -> exists r W, piD k n qq p lam = Ok r /\ qcoefs r W /\
  if qq then quantum_D k n p lam W
  else (forall nu, coef_D k n p lam nu (W 0%nat nu)) /\ (forall d nu, (1 <= d)%nat -> W d nu = 0%Qc).
Proof.
  intros Hl. destruct Hok as (Hk & Hq). destruct qq; cbn [piD].
  - apply (qpieriD_coefs k n lam p); auto; lia.
  - destruct (pieriD_lincl k n p lam) as (r & W & H1 & H2 & H3); try lia; auto.
    exists r, (fun d l => match d with O => W l | _ => 0%Qc end). split; auto. split; [apply lincl_qcoefs; auto|]. split; auto.
    intros [|d] nu Hd; [lia|reflexivity].
Qed.
Lemma piD_supp p lam W :
  (if qq then quantum_D k n p lam W
   else (forall nu, coef_D k n p lam nu (W 0%nat nu)) /\ (forall d nu, (1 <= d)%nat -> W d nu = 0%Qc)) ->
  forall d nu, W d nu <> 0%Qc -> (d < 3)%nat /\ V nu /\ (d = 0%nat \/ qq = true) /\ size nu + Z.of_nat d * (n + k) = size lam + Z.abs p.
Proof.
  intros H d nu Hne. destruct Hok as (Hk & Hq). destruct qq.
  - pose proof (quantum_D_good k n p lam W d nu ltac:(auto) ltac:(lia) H Hne) as (_ & Hs). destruct H as (_ & _ & _ & H). destruct (H d nu Hne) as (H1 & H2).
    split; [lia|]. split; auto.
  - destruct H as (H0 & H1). destruct d as [|d]; [|exfalso; apply Hne, H1; lia].
    destruct (coef_D_supp _ _ _ _ _ _ (H0 nu) Hne) as (A1 & A2 & _). split; [lia|]. split; auto. split; auto. lia.
Qed.
Lemma piD_0 p lam W :
  (if qq then quantum_D k n p lam W
   else (forall nu, coef_D k n p lam nu (W 0%nat nu)) /\ (forall d nu, (1 <= d)%nat -> W d nu = 0%Qc)) ->
  forall nu, coef_D k n p lam nu (W 0%nat nu).
Proof. destruct qq; intros H; apply H. Qed.

Definition tabD := if qq then bB else bcl.
Definition dtabD := if qq then dB else dcl.
Lemma kD_zero tab dtab p e w v : (forall x y, tab e x y = None) -> (forall x y, dtab e x y = None) -> kD tab dtab k n p e w v = 0%Qc.
Proof.
  intros H1 H2. unfold kD, kT, kS.
  assert (E1 : forall m u, bwalk tab m e w u = None) by (intros m [|y u]; destruct w as [|x w']; try reflexivity; cbn [bwalk]; rewrite H1; reflexivity).
  rewrite E1. cbn [tfin]. rewrite co_nil.
  assert (E2 : forall u, match w with [] => 0%Qc | x :: w' => match u with [] => 0%Qc | y :: v' => match dtab e x y with Some (a, s) => (s * TransD.drun (Nat.pred (Z.to_nat n)) a w' v')%Qc | None => 0%Qc end end end = 0%Qc)
    by (intros [|y u]; destruct w as [|x w']; try reflexivity; rewrite H2; reflexivity).
  rewrite E2. ring.
Qed.
Lemma piD_wcoefs p w : In w ws ->
  wcoefs encD ws 3 (P (piD k n qq) p (encD w)) (fun d v => kD tabD dtabD k n p d w v).
Proof.
  intros Hw. destruct Hok as (Hk & Hq). pose proof (encD_V k n Hk w Hw) as HV.
  destruct (piD_coefs p _ HV) as (r & W & E & (Hc & Hm) & H). unfold P. rewrite E. split.
  - intros d v Hv. rewrite Hc. pose proof (piD_0 _ _ _ H (encD v)) as H0. pose proof (encD_V k n Hk v Hv) as HVv. destruct d as [|d].
    + apply (coef_D0 k n Hk); auto; unfold tabD, dtabD; destruct qq; reflexivity.
    + unfold tabD, dtabD. destruct qq.
      * destruct H as (_ & H1 & H2 & H3). destruct d as [|[|d]].
        -- apply (coef_D1 k n Hk w v p); auto. apply H1; auto.
        -- apply (coef_D2 k n Hk w v p); auto. apply H2.
        -- destruct (Qc_eq_dec (W (S (S (S d))) (encD v)) 0%Qc) as [E0|E0]; [|destruct (H3 _ _ E0); lia].
           rewrite E0. symmetry. apply kD_zero; intros [| |] [| |]; reflexivity.
      * destruct H as (_ & H1). rewrite H1 by lia. symmetry. apply kD_zero; intros [| |] [| |]; reflexivity.
  - intros m Hne. destruct (Hm m Hne) as (d & nu & HP).
    assert (Hne' : W d nu <> 0%Qc) by (rewrite <- Hc, <- (coef_perm r _ _ HP); auto).
    destruct (piD_supp p _ W H d nu Hne') as (Hd & HVm & _). destruct (encD_ex k n Hk nu HVm) as (v & Hv & <-). exists d, v. auto.
Qed.
Lemma comm_D i j l : V l -> peq (ext (piD k n qq) j (P (piD k n qq) i l)) (ext (piD k n qq) i (P (piD k n qq) j l)).
Proof.
  intros Hl. destruct Hok as (Hk & Hq). destruct (encD_ex k n Hk l Hl) as (w & Hw & <-).
  apply (comm_enc encD ws (wset_nodup k (n + 1)) (encD_inj k n Hk) 3 (piD k n qq) i j
    (fun w d v => kD tabD dtabD k n i d w v) (fun w d v => kD tabD dtabD k n j d w v)); auto.
  - intros u Hu. apply piD_wcoefs; auto.
  - intros u Hu. apply piD_wcoefs; auto.
  - intros d v Hv. unfold tabD, dtabD. destruct qq; apply sym_D; auto using kk_sym_B, kk_sym_cl, kkD_B, kkD_cl, chtab_B, chtab_cl, subtab_B, subtab_cl.
Qed.

(** *** the head of a class *)
Definition headD (l : list Z) (p : Z) (l0 : list Z) : Prop :=
  shape l = Z.abs p :: shape l0 /\ (p < 0 -> p = - k) /\ ((type_of k l0 = type_of k l /\ (p = k -> type_of k l = 1) /\ (p < 0 -> type_of k l = 2)) \/
   (Z.abs p = k /\ type_of k l0 = 0 /\ type_of k l = if p <? 0 then 2 else 1)).

Lemma type_part s : is_partition s -> type_of k s = if existsb (Z.eqb k) s then 1 else 0.
Proof. intros H. unfold type_of. pose proof (last_partition s H) as E. destruct (Z.eqb_spec (last s 1) 0); [congruence|]. reflexivity. Qed.
Lemma type_app0 s : 0 < k -> type_of k (s ++ [0]) = if existsb (Z.eqb k) s then 2 else 0.
Proof.
  intros H. unfold type_of. rewrite last_last, existsb_app. cbn [existsb]. replace (k =? 0) with false by lia. rewrite !orb_false_r.
  destruct (existsb (Z.eqb k) s); reflexivity.
Qed.
Lemma exk s : existsb (Z.eqb k) s = true <-> In k s.
Proof. rewrite existsb_exists. split; [intros (x & Hx & E); apply Z.eqb_eq in E; subst; auto|intros H; exists k; split; auto; apply Z.eqb_refl]. Qed.

Lemma gselD l : V l -> l <> [] -> exists p l0, gsel k l = Ok (p, l0) /\ ID k n p /\ V l0 /\ headD l p l0.
Proof.
  intros HV Hne. pose proof Hok as (Hk & _). destruct (typed_shape _ _ _ _ HV) as (Hs & Hc). pose proof (type_of_cases _ _ _ _ HV) as HT.
  destruct (shape l) as [|p t] eqn:Es.
  { exfalso. destruct Hc as [Hc|(_ & _ & [])]. congruence. }
  assert (Hpl : is_partition (p :: t)) by apply Hs. destruct (kstrict_cons _ _ _ _ _ Hs) as (Hp & Ht).
  assert (Hpt : is_partition t) by apply Ht. destruct (partition_tl p t Hpl) as (_ & _ & Hpt0).
  destruct Hc as [Hc|(Hc & _ & Hin)].
  - subst l. exists p, t. split; [apply gsel_part; auto|]. split; [left; exact Hp|]. split; [left; exact Ht|].
    assert (El : shape (p :: t) = p :: t) by (apply shape_partition; auto). unfold headD. rewrite (shape_partition t Hpt), El. rewrite Z.abs_eq by lia. split; [reflexivity|]. split; [lia|].
    rewrite !type_part by auto. cbn [existsb]. destruct (Z.eqb_spec k p) as [E|E]; cbn [orb].
    + destruct (existsb (Z.eqb k) t); [left; repeat split; auto; lia|right]. replace (p <? 0) with false by lia. auto.
    + left. split; [reflexivity|]. split; [congruence|lia].
  - assert (HkL : existsb (Z.eqb k) (p :: t) = true) by (apply exk; auto).
    assert (Hkp : k <= p). { destruct Hin as [->|Hin]; [lia|]. destruct (In_nth _ _ 0 Hin) as (j & Hj & E). pose proof (partition_dec t j Hpt). unfold part in *. lia. }
    assert (Eg : gsel k l = Ok (if p =? k then - k else p, if part t 0 <? k then t else t ++ [0])).
    { subst l. unfold gsel. rewrite last_last. change (0 =? 0) with true. cbv iota. rewrite andb_true_r. change (hd 0 ((p :: t) ++ [0])) with p.
      assert (E1 : py_get ((p :: t) ++ [0]) 1 = Ok (part t 0)).
      { rewrite (py_get_in _ 1 0) by (rewrite zlen_app; change (zlen [0]) with 1; rewrite zlen_cons; pose proof (zlen_nonneg t); lia). f_equal. change (Z.to_nat 1) with 1%nat. cbn [app nth]. unfold part. destruct t; reflexivity. }
      rewrite E1. cbn [bind]. do 2 f_equal. unfold sl. rewrite sl_to_m1. rewrite sl_bound_in by (rewrite zlen_app, zlen_cons; change (zlen [0]) with 1; pose proof (zlen_nonneg t); lia).
      change (Z.to_nat 1) with 1%nat. cbn [skipn app]. rewrite sl_from_1. reflexivity. }
    eexists. eexists. split; [exact Eg|].
    assert (Et : type_of k l = 2) by (subst l; rewrite type_app0, HkL by lia; reflexivity).
    assert (Hin' : existsb (Z.eqb k) t = true -> k <= part t 0).
    { intros Hi. apply exk in Hi. destruct (In_nth _ _ 0 Hi) as (j & Hj & E). pose proof (partition_dec t j Hpt). unfold part in *. lia. }
    assert (Hp0 : k <= part t 0 -> In k t).
    { intros Hle. destruct Hin as [Hpk|Hin]; [|exact Hin]. subst p. destruct t as [|y u]; [unfold part in Hle; cbn in Hle; lia|]. left. unfold part in *. cbn [nth] in *. lia. }
    unfold headD. rewrite Es, Et. destruct (Z.ltb_spec (part t 0) k) as [L|L].
    + assert (Epk : p = k) by (destruct Hin as [E|Hin]; [auto|exfalso; apply exk in Hin; specialize (Hin' Hin); lia]).
      subst p. rewrite Z.eqb_refl. split; [right; auto|]. split; [left; exact Ht|]. rewrite (shape_partition t Hpt). replace (Z.abs (- k)) with k by lia. split; [reflexivity|]. split; [auto|]. right.
      replace (- k <? 0) with true by lia. split; [auto|]. split; [|auto]. rewrite type_part by auto. destruct (existsb (Z.eqb k) t); [specialize (Hin' eq_refl); lia|reflexivity].
    + specialize (Hp0 L). split; [destruct (p =? k); [right; auto|left; auto]|]. split; [right; exists t; repeat split; auto; try lia; apply Ht|].
      rewrite shape_app0, (shape_partition t Hpt). rewrite type_app0 by lia. pose proof Hp0 as Hp1. apply exk in Hp1. rewrite Hp1.
      destruct (Z.eqb_spec p k) as [->|Epk].
      * replace (Z.abs (- k)) with k by lia. split; [reflexivity|]. split; [auto|]. left. split; [auto|]. split; [lia|auto].
      * rewrite Z.abs_eq by lia. split; [reflexivity|]. split; [lia|]. left. split; [auto|]. split; [congruence|lia].
Qed.
Lemma typed_eq l l' : V l -> V l' -> shape l = shape l' -> type_of k l = type_of k l' -> l = l'.
Proof.
  intros H H' Es Et. pose proof (type_of_cases _ _ _ _ H) as C. pose proof (type_of_cases _ _ _ _ H') as C'. rewrite Es in *.
  destruct C as [(A & B & C)|[(A & B & C)|(A & B & C)]], C' as [(A' & B' & C')|[(A' & B' & C')|(A' & B' & C')]]; try congruence; try contradiction.
Qed.
Lemma type_in l : V l -> (type_of k l = 0 /\ ~ In k (shape l)) \/ ((type_of k l = 1 \/ type_of k l = 2) /\ In k (shape l)).
Proof. intros H. pose proof (type_of_cases _ _ _ _ H) as C. tauto. Qed.
Lemma not_gaining_tl p t : 0 <= k <= p -> not_gaining k t (p :: t) = 0.
Proof.
  intros H. unfold not_gaining. assert (G : forall f (l : list Z), (forall x, In x l -> f x = false) -> filter f l = []).
  { clear. induction l as [|x l IH]; intros Hf; [reflexivity|]. cbn [filter]. rewrite Hf by (left; auto). apply IH. intros; apply Hf; right; auto. }
  rewrite G; [reflexivity|]. intros x Hx. apply in_map_iff in Hx. destruct Hx as (j & <- & Hj). apply in_seq in Hj.
  rewrite cge. destruct (Z.leb_spec (Z.of_nat j) p); lia.
Qed.
(** the terms with the least head: the class itself *)
Lemma coef_D_head l p l0 nu c : V l -> V l0 -> headD l p l0 -> coef_D k n p l0 nu c ->
  (nu = l -> c = 1%Qc) /\ (c <> 0%Qc -> nu <> l -> V nu /\ size nu = size l /\ part l 0 < part nu 0).
Proof.
  intros Hl Hl0 (Es & Hneg & HT) Hc. pose proof Hok as (Hk & _).
  destruct (typed_shape _ _ _ _ Hl) as (Hs & _). destruct (typed_shape _ _ _ _ Hl0) as (Hs0 & _). rewrite Es in Hs.
  assert (Hpl : is_partition (Z.abs p :: shape l0)) by apply Hs. destruct (partition_tl _ _ Hpl) as (_ & Hp & _).
  assert (Esz : size l = size l0 + Z.abs p).
  { rewrite <- (size_shape _ _ _ _ Hl), <- (size_shape _ _ _ _ Hl0), Es. change (size (Z.abs p :: shape l0)) with (Z.abs p + size (shape l0)). lia. }
  assert (H3 : type_of k l0 + type_of k l <> 3).
  { destruct (type_in l Hl) as [(B & _)|(B & _)]; destruct HT as [(A & _)|(_ & A & _)]; lia. }
  assert (HC : component_count (free_box k 1 (shape l0) (shape l)) (fun _ => True) (if Z.abs p <=? k then 0 else 1)).
  { rewrite Es. apply comps_tl_B; auto; try lia. apply Hs. }
  split.
  - intros ->. destruct Hc as [(_ & N & H1 & _ & ->)|(H1 & _)].
    2:{ exfalso. apply H1. split; auto. split; [lia|]. split; [|exact H3]. rewrite Es. apply arrow_tl; auto. }
    rewrite (component_count_unique _ _ _ _ H1 HC). unfold mult_D. destruct (Z.leb_spec (Z.abs p) k) as [L|L].
    + destruct (Z.ltb_spec (Z.abs p) k) as [L'|L']; [reflexivity|]. change (0 <? 0) with false. cbv iota. rewrite Es, not_gaining_tl by lia.
      assert (EP : Z.odd (0 + Z.max (type_of k l0) (type_of k l) + (if p <? 0 then 1 else 0)) = true); [|rewrite EP; reflexivity].
      destruct HT as [(A & B & C)|(_ & A & B)].
      * rewrite A, Z.max_id. destruct (Z.ltb_spec p 0); [rewrite C by lia; reflexivity|rewrite B by lia; reflexivity].
      * rewrite A, B. destruct (p <? 0); reflexivity.
    + replace (Z.abs p <? k) with false by lia. reflexivity.
  - intros Hne Hnu. destruct Hc as [(HTm & N & H1 & _ & Ec)|(_ & Ec)]; [|congruence]. destruct HTm as (Hv & Hsz & Har & H3').
    split; auto. split; [lia|]. destruct (typed_shape _ _ _ _ Hv) as (Hsn & _).
    destruct (arrow_head k 1 (Z.abs p) (shape l0) (shape nu)) as [B1 B2]; auto; try apply Hs0; try apply Hsn.
    { rewrite (size_shape _ _ _ _ Hv), (size_shape _ _ _ _ Hl0). exact Hsz. }
    rewrite (typed_part _ _ _ nu 0 Hv) in *. rewrite <- (typed_part _ _ _ l 0 Hl), Es. change (part (Z.abs p :: shape l0) 0) with (Z.abs p).
    destruct (Z.eq_dec (part nu 0) (Z.abs p)) as [Eh|]; [|lia]. exfalso. specialize (B2 Eh).
    assert (Esn : shape nu = shape l) by congruence. assert (Ht : type_of k nu <> type_of k l) by (intros E; apply Hnu; apply typed_eq; auto).
    destruct (type_in l Hl) as [(T1 & T2)|(T1 & T2)], (type_in nu Hv) as [(T3 & T4)|(T3 & T4)]; rewrite Esn in *; try contradiction; try lia.
    assert (Esum : type_of k nu + type_of k l = 3) by lia.
    destruct HT as [(A & _)|(A1 & A & B)]; [lia|].
    apply Hne. rewrite Ec. rewrite (component_count_unique _ _ _ _ H1 HC). unfold mult_D. replace (Z.abs p <? k) with false by lia. replace (Z.abs p <=? k) with true by lia.
    change (0 <? 0) with false. cbv iota. rewrite Esn, Es, not_gaining_tl by lia. rewrite A.
    assert (EP : Z.odd (0 + Z.max 0 (type_of k nu) + (if p <? 0 then 1 else 0)) = false); [|rewrite EP; reflexivity].
    destruct (p <? 0); [replace (type_of k nu) with 1 by lia|replace (type_of k nu) with 2 by lia]; reflexivity.
Qed.
Lemma typed_range a : V a -> 0 <= size a /\ 0 <= part a 0 <= n + k.
Proof.
  intros H. destruct (typed_shape _ _ _ _ H) as (((A1 & _ & A3) & _) & _). rewrite <- (size_shape _ _ _ _ H), <- (typed_part _ _ _ a 0 H). split; [apply size_nonneg; auto|]. pose proof (is_partition_nonneg (shape a) 0 A1). lia.
Qed.

Lemma recD l : V l -> l <> [] ->
  exists p l0, gsel k l = Ok (p, l0) /\ ID k n p /\ below V mu l l0 /\
    supp (linm (below V mu l) (eq VQ)) (psub (P (piD k n qq) p l0) (pS l)).
Proof.
  intros Hl Hne. pose proof Hok as (Hk & _). destruct (gselD l Hl Hne) as (p & l0 & Eg & Hp & Hl0 & Hh). exists p, l0. split; auto. split; auto.
  destruct (typed_range l Hl) as (L1 & L2). destruct (typed_range l0 Hl0) as (T1 & T2).
  assert (Hap : 1 <= Z.abs p <= n + k) by (destruct Hp as [H|H]; lia).
  assert (Es : size l = size l0 + Z.abs p).
  { destruct Hh as (Es & _). rewrite <- (size_shape _ _ _ _ Hl), <- (size_shape _ _ _ _ Hl0), Es. change (size (Z.abs p :: shape l0)) with (Z.abs p + size (shape l0)). lia. }
  split; [split; auto; apply muM_size; auto; lia|].
  destruct (piD_coefs p l0 Hl0) as (r & W & E & HQ & H). unfold P. rewrite E.
  pose proof (fun nu => coef_D_head l p l0 nu _ Hl Hl0 Hh (piD_0 _ _ _ H nu)) as HH.
  apply (rec_supp _ r l W HQ).
  - apply HH. reflexivity.
  - intros d nu HW Hd. destruct (piD_supp p l0 W H d nu HW) as (_ & A1 & _ & A2). split; auto. destruct (typed_range nu A1) as (N1 & N2). destruct d as [|d].
    + destruct (HH nu) as (_ & G). destruct (G HW (Hd eq_refl)) as (_ & G1 & G2). apply muM_head; auto.
    + apply muM_size; auto. rewrite Nat2Z.inj_succ in A2. nia.
Qed.
Lemma fuelD l : V l -> (mu l < giam_fuel (gD k n))%nat.
Proof.
  intros H. pose proof Hok as (Hk & _). destruct (typed_range l H) as (_ & Hp). destruct (typed_shape _ _ _ _ H) as ((Hb & _) & _).
  unfold muM, giam_fuel. cbn [g_n g_k gD]. pose proof (size_box _ _ _ Hb) as Hs. rewrite (size_shape _ _ _ _ H) in Hs.
  apply Z2Nat.inj_lt; [nia|nia|].
  assert ((n + 1 - k) * (n + k) <= (n + 1) * (n + k)) by nia.
  assert (size l * (n + k + 1) + (n + k - part l 0) <= ((n + 1) * (n + k) + 1) * (n + k + 1)) by nia.
  assert (((n + 1) * (n + k) + 1) * (n + k + 1) < ((n + 2) * (n + k + 1) + 2) * (n + k + 3)); [|lia]. nia.
Qed.
Lemma nonneg_typed l : V l -> schur_nonneg (SP l) = true.
Proof.
  intros [H|(s & -> & _ & _ & H)]; [eapply nonneg_schur; eauto|]. apply nonneg_schur in H. cbn [schur_nonneg] in *. rewrite forallb_app, H. reflexivity.
Qed.
Lemma num2spec_D i : ID k n i -> V (num2spec i).
Proof.
  intros H. pose proof Hok as (Hk & _). unfold num2spec. destruct (Z.ltb_spec 0 i) as [L|L].
  - left. destruct H as [H|H]; [|lia]. apply kstrict_row1'; lia.
  - destruct H as [H| ->]; [lia|]. rewrite Z.opp_involutive. right. exists [k]. split; [reflexivity|]. split; [lia|]. split; [left; auto|]. apply kstrict_row1'; lia.
Qed.
Lemma sysD : pieri_sys TD (piD k n qq) V (ID k n) k mu (giam_fuel (gD k n)).
Proof.
  pose proof Hok as (Hk & _). split.
  - intros i l Hi Hl. destruct (piD_coefs i l Hl) as (r & W & E & _). unfold P. rewrite E. reflexivity.
  - intros i l Hi Hl. destruct (piD_coefs i l Hl) as (r & W & E & HQ & H). unfold P. rewrite E.
    apply (lin_qcoefs _ _ W HQ). intros d nu HW. apply (piD_supp i l W H d nu HW).
  - left. apply kstrict_nil; lia.
  - intros i Hi. unfold sv, num2spec. destruct (Z.ltb_spec 0 i) as [E|E]; [reflexivity|]. unfold spec2num, vS. cbn [is_D negb orb]. change (0 =? 0) with true. cbn [negb orb]. f_equal. lia.
  - intros i j l Hi Hj Hl. apply comm_D; auto.
  - apply nonneg_typed.
  - intros i Hi. apply nonneg_typed. apply num2spec_D. exact Hi.
  - apply recD.
  - apply fuelD.
Qed.
End RD.
