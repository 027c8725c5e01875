(** Quantum Kostka numbers: products of special classes in the quantum ring of
    Gr(m,n) count cylindric tableaux. *)

From Coq Require Import ZArith List Lia Bool Permutation QArith Qcanon Setoid Morphisms.
From Verif Require Import Py OrderFacts PyFacts ModelPart ModelQcalc ModelPoly ModelStr ModelGr ModelMisc Spec SpecMisc SpecProd SpecCyl
  PolyFacts SuppFacts OpTheory Enum FillFacts PartFacts PieriA QPieriA CylA WSum Sys Sys2 SysApi RingA FactsA GrInv ApiA DualA DualSys QOcc SpecMaxQ LoopQ
  CoefSys ApiMisc ApiKostka.
Import ListNotations.
Open Scope Z_scope.

Section A.
Variables m k : Z.
Hypothesis Hm : 1 <= m.
Hypothesis Hk : 0 <= k.
Notation V := (in_box m k).
Notation per := (per m k).
Notation win := (win m k).
Notation MQ := (M TA (piA m k true) k (giam_fuel (gA m k))).
Notation SYS := (sysA m k Hm Hk true).

Lemma moved_win d x : moved m k d x = map (win d x) (zrange 0 m).
Proof. reflexivity. Qed.
Lemma part_moved d x j : 0 <= j < m -> part (moved m k d x) (Z.to_nat j) = win d x j.
Proof. intros Hj. rewrite moved_win. apply (part_map_zrange m); auto. Qed.
Lemma zlen_moved d x : zlen (moved m k d x) = m.
Proof. rewrite moved_win, zlen_map, zlen_zrange. lia. Qed.
Lemma per_moved d x j : per (moved m k d x) j = win d x j.
Proof.
  revert j. apply (period_ind m Hm (fun j => per (moved m k d x) j = win d x j)).
  - intros j. rewrite (per_perd m k Hm), (win_perd m k Hm). lia.
  - intros j Hj. rewrite per_in by auto. apply part_moved; auto.
Qed.
Lemma list_per (v w : list Z) : zlen v = m -> zlen w = m -> (forall j, per v j = per w j) -> v = w.
Proof. intros Hv Hw E. rewrite <- (map_per m k v Hv), <- (map_per m k w Hw). apply map_ext. auto. Qed.

Lemma moved_eq d x e y : V x -> V y -> moved m k d x = moved m k e y -> d = e /\ x = y.
Proof.
  intros Hx Hy E. destruct (win_unique m k Hm Hk (e - d) x y Hx Hy) as (E1 & E2); [|split; [lia|auto]].
  intros j. assert (Ej : win d x (j + d) = win e y (j + d)) by (rewrite <- !per_moved, E; reflexivity).
  unfold CylA.win in *. replace (j + d - d) with j in Ej by lia. replace (j + d - e) with (j - (e - d)) in Ej by lia. lia.
Qed.

(** one strip *)
Lemma strip_il v w i : zlen v = m -> (cyl_strip m k v w i <-> zlen w = m /\ il (per v) (per w) /\ size w = size v + i).
Proof.
  intros Hv. unfold cyl_strip. rewrite (il_iff_period m k Hm) by (apply per_perd; auto). split.
  - intros (H1 & H2 & H3 & H4 & H5). split; [auto|]. split; [|auto]. intros j Hj. rewrite !per_in by auto. split; [auto|].
    destruct (Z.eq_dec j 0) as [->|E]; [rewrite per_m1 by auto; exact H4|]. rewrite per_in by lia. apply H3; lia.
  - intros (H1 & H2 & H5). split; [auto|]. split; [|split; [|split]]; auto.
    + intros j Hj. specialize (H2 j Hj). rewrite !(per_in m k) in H2 by auto. tauto.
    + intros j Hj. specialize (H2 j ltac:(lia)). rewrite !(per_in m k) in H2 by lia. tauto.
    + specialize (H2 0 ltac:(lia)). rewrite (per_in m k w) in H2 by lia. change (0 - 1) with (-1) in H2. rewrite per_m1 in H2 by auto. change (Z.to_nat 0) with 0%nat in H2. lia.
Qed.
Lemma size_moved0 x : V x -> size (moved m k 0 x) = size x.
Proof.
  intros Hx. pose proof (in_box_wbox _ _ _ Hx) as (_ & Lx).
  assert (E : moved m k 0 x = padm m x); [|rewrite E, !size_zsum; apply zsum_padm].
  apply list_per; auto using zlen_moved. intros j. rewrite per_moved, per_padm. apply win_0.
Qed.
Lemma size_moved_step d x : V x -> size (moved m k (d + 1) x) = size (moved m k d x) + (m + k).
Proof.
  intros Hx. rewrite !size_zsum, !moved_win.
  change (wsum m (win (d + 1) x) = wsum m (win d x) + (m + k)).
  rewrite (wsum_ext m (win (d + 1) x) (fun j => win d x (j - 1) + 1)).
  - rewrite wsum_add, wsum_shift, wsum_const by auto. pose proof (win_perd m k Hm d x (-1)) as Q. replace (-1 + m) with (m - 1) in Q by lia. lia.
  - intros j. rewrite Z.add_comm. apply win_shift.
Qed.
Lemma size_moved d x : V x -> size (moved m k d x) = size x + d * (m + k).
Proof.
  intros Hx. destruct (Z.le_gt_cases 0 d) as [Hd|Hd].
  - revert d Hd. apply natlike_ind; [rewrite size_moved0 by auto; lia|]. intros d Hd IH. unfold Z.succ. rewrite size_moved_step, IH by auto. lia.
  - assert (G : forall e, 0 <= e -> size (moved m k (- e) x) = size x + - e * (m + k)).
    { apply natlike_ind; [change (- 0) with 0; rewrite size_moved0 by auto; lia|]. intros e He IH.
      pose proof (size_moved_step (- Z.succ e) x Hx) as Q. replace (- Z.succ e + 1) with (- e) in Q by lia. lia. }
    specialize (G (- d) ltac:(lia)). rewrite Z.opp_involutive in G. auto.
Qed.
Lemma strip_moved s e x y i : V x -> V y ->
  (cyl_strip m k (moved m k s x) (moved m k (s + e) y) i <-> il (per x) (win e y) /\ size y + e * (m + k) = size x + i).
Proof.
  intros Hx Hy. rewrite strip_il by apply zlen_moved. rewrite !size_moved by auto. rewrite (il_shift m k s).
  assert (EI : il (per (moved m k s x)) (per (moved m k (s + e) y)) <-> il (win s x) (win (s + e) y)).
  { split; intros H j; specialize (H j); rewrite !per_moved in *; auto. }
  rewrite EI. pose proof (zlen_moved (s + e) y). split; [intros (_ & H1 & H2); split; [auto|lia]|intros (H1 & H2); split; [auto|split; [auto|lia]]].
Qed.
(** the end of a step is a class with a power of q *)
Lemma strip_end s x w i : V x -> cyl_strip m k (moved m k s x) w i ->
  exists e y, (e = 0%nat \/ e = 1%nat) /\ V y /\ w = moved m k (s + Z.of_nat e) y.
Proof.
  intros Hx H. apply strip_il in H; [|apply zlen_moved]. destruct H as (Lw & HI & _).
  set (L := fun j => per w (j + s) - s).
  assert (HP : perd m k L).
  { intros j. unfold L. replace (j + m + s) with (j + s + m) by lia. rewrite (per_perd m k Hm). lia. }
  assert (HL : il (per (padm m x)) L).
  { intros j. rewrite !per_padm. unfold L. specialize (HI (j + s)). rewrite !per_moved in HI. unfold CylA.win in HI.
    replace (j + s - s) with j in HI by lia. replace (j + s - 1 - s) with (j - 1) in HI by lia. lia. }
  pose proof (unwin_ok m k Hm Hk (padm m x) L (in_box_wbox _ _ _ Hx) HP HL) as U. destruct (unwin m k L) as [e y].
  destruct U as (Wy & He & Ej). exists e, (part_clip y). split; [auto|]. split; [apply wbox_in_box; auto|].
  apply list_per; auto using zlen_moved. intros j. rewrite per_moved. specialize (Ej (j - s)). unfold L in Ej. replace (j - s + s) with j in Ej by lia.
  rewrite win_shift. rewrite <- (win_padm m k (Z.of_nat e) (part_clip y)). rewrite (wbox_padm_clip m k) by auto. lia.
Qed.
Lemma last_cons {A} (T : list A) : forall w v, last (w :: T) v = last T w.
Proof.
  induction T as [|a T IH]; intros w v; [reflexivity|]. change (last (w :: a :: T) v) with (last (a :: T) v). rewrite !IH. reflexivity.
Qed.
Lemma chain_le c : forall v T, zlen v = m -> cyl_tableau m k v c T -> forall j, per v j <= per (last T v) j.
Proof.
  induction c as [|i c IH]; intros v T Hv H j; destruct T as [|w T]; cbn [cyl_tableau] in H; try contradiction; [cbn; lia|].
  destruct H as (H1 & H2). apply strip_il in H1; auto. destruct H1 as (Lw & HI & _). specialize (IH w T Lw H2 j). specialize (HI j).
  rewrite last_cons. lia.
Qed.
Lemma moved_le d e x y : V x -> V y -> (forall j, win d x j <= win e y j) -> d <= e.
Proof.
  intros Hx Hy H. destruct (Z.le_gt_cases d e) as [|G]; [auto|exfalso].
  specialize (H (d - 1)). unfold CylA.win in H. replace (d - 1 - d) with (-1) in H by lia. rewrite per_m1 in H by auto.
  pose proof (per_mono m k Hm Hk y 0 (d - 1 - e) Hy ltac:(lia)) as Q. rewrite (per_in m k y 0) in Q by lia.
  pose proof (part_bd m k Hm Hk x (Z.to_nat (m - 1)) Hx). pose proof (part_bd m k Hm Hk y (Z.to_nat 0) Hy). lia.
Qed.

(** the list of the tableaux *)
Fixpoint Ls (c : list Z) (s : Z) (x : list Z) (d : nat) (y : list Z) : list (list (list Z)) :=
  match c with
  | [] => if pair_dec (d, y) (0%nat, x) then [[]] else []
  | i :: c' => flat_map (fun z => if (fst z <=? d)%nat then
        map (cons (moved m k (s + Z.of_nat (fst z)) (part_clip (snd z)))) (Ls c' (s + Z.of_nat (fst z)) (part_clip (snd z)) (d - fst z) y)
      else []) (EA m k true i (padm m x))
  end.



Lemma EA_step i x z : IA k i -> V x -> In z (EA m k true i (padm m x)) ->
  V (part_clip (snd z)) /\ il (per x) (win (Z.of_nat (fst z)) (part_clip (snd z))) /\ size (part_clip (snd z)) + Z.of_nat (fst z) * (m + k) = size x + i.
Proof.
  intros Hi Hx Hz. pose proof (in_box_wbox _ _ _ Hx) as Wx. pose proof (EA_wbox m k Hm Hk true i (padm m x) _ Wx Hz) as Ww.
  pose proof (wbox_in_box m k _ Hk Ww) as Vz. split; [auto|].
  apply (step_iff m k Hm Hk i (fst z) x (part_clip (snd z))); auto. rewrite coef_edge by auto.
  rewrite (wbox_padm_clip m k) by auto. destruct z as [e w]. cbn [fst snd]. destruct (in_dec _ _ _); [discriminate|contradiction].
Qed.
Lemma step_EA i x e y : IA k i -> V x -> V y -> il (per x) (win (Z.of_nat e) y) -> size y + Z.of_nat e * (m + k) = size x + i ->
  In (e, padm m y) (EA m k true i (padm m x)).
Proof.
  intros Hi Hx Hy H1 H2. pose proof (proj2 (step_iff m k Hm Hk i e x y Hi Hx Hy) (conj H1 H2)) as H. rewrite coef_edge in H by auto.
  destruct (in_dec _ _ _) as [HE|HE]; [exact HE|congruence].
Qed.

Lemma Ls_in c : (forall i, In i c -> IA k i) -> forall s x d y T, V x -> V y ->
  (In T (Ls c s x d y) <-> cyl_tableau m k (moved m k s x) c T /\ last T (moved m k s x) = moved m k (s + Z.of_nat d) y).
Proof.
  induction c as [|i c IH]; intros Hc s x d y T Hx Hy.
  - cbn [Ls]. destruct (pair_dec _ _) as [E|E].
    + inversion E; subst. change (Z.of_nat 0) with 0. rewrite Z.add_0_r. split.
      * intros [<-|[]]. cbn. auto.
      * intros (H & _). destruct T; [left; auto|contradiction].
    + split; [intros []|]. intros (H & El). destruct T; [|contradiction]. cbn [last] in El. exfalso. apply E.
      destruct (moved_eq s x (s + Z.of_nat d) y Hx Hy El) as (E1 & ->). f_equal; lia.
  - assert (Hi : IA k i) by (apply Hc; simpl; auto). assert (Hc' : forall j, In j c -> IA k j) by (intros; apply Hc; simpl; auto).
    cbn [Ls]. rewrite in_flat_map. split.
    + intros (z & Hz & HT). destruct (Nat.leb_spec (fst z) d) as [Hd|Hd]; [|destruct HT]. apply in_map_iff in HT. destruct HT as (T' & <- & HT).
      destruct (EA_step i x z Hi Hx Hz) as (Vz & I1 & I2). apply IH in HT; auto. destruct HT as (H1 & H2). rewrite last_cons. cbn [cyl_tableau].
      split; [split; [apply strip_moved; auto|auto]|]. rewrite H2. f_equal. lia.
    + intros (H & El). destruct T as [|w T]; [contradiction|]. cbn [cyl_tableau] in H. destruct H as (H1 & H2). rewrite last_cons in El.
      destruct (strip_end s x w i Hx H1) as (e & z & He & Vz & ->). apply strip_moved in H1; auto. destruct H1 as (I1 & I2).
      assert (Hd : (e <= d)%nat).
      { assert (Q : s + Z.of_nat e <= s + Z.of_nat d); [|lia]. apply (moved_le _ _ z y Vz Hy). intros j.
        pose proof (chain_le c _ T (zlen_moved _ _) H2 j) as Q. rewrite El, !per_moved in Q. auto. }
      exists (e, padm m z). split; [apply step_EA; auto|]. cbn [fst snd]. destruct (Nat.leb_spec e d); [|lia].
      rewrite (clip_padm m k) by auto. apply in_map. apply IH; auto. split; auto. rewrite El. f_equal. lia.
Qed.

Lemma Ls_nodup c : (forall i, In i c -> IA k i) -> forall s x d y, V x -> V y -> NoDup (Ls c s x d y).
Proof.
  induction c as [|i c IH]; intros Hc s x d y Hx Hy; cbn [Ls].
  - destruct (pair_dec _ _); repeat constructor; auto.
  - assert (Hi : IA k i) by (apply Hc; simpl; auto). assert (Hc' : forall j, In j c -> IA k j) by (intros; apply Hc; simpl; auto).
    pose proof (EA_nodup m k true i (padm m x)) as N. pose proof (fun z => EA_step i x z Hi Hx) as HE. pose proof (fun z => EA_wbox m k Hm Hk true i (padm m x) z (in_box_wbox _ _ _ Hx)) as HW.
    revert N HE HW. generalize (EA m k true i (padm m x)). intros E. induction E as [|z E IE]; intros N HE HW; [constructor|]. inversion N as [|? ? Nz NE]; subst.
    cbn [flat_map]. apply nodup_app.
    + destruct (Nat.leb_spec (fst z) d); [|constructor]. apply FinFun_nodup_map; [apply IH; auto; apply HE; simpl; auto|].
      intros a b _ _ Eab. inversion Eab; auto.
    + apply IE; auto; intros; [apply HE|apply HW]; simpl; auto.
    + intros T H1 H2. apply in_flat_map in H2. destruct H2 as (z' & Hz' & H2).
      destruct (Nat.leb_spec (fst z) d); [|destruct H1]. destruct (Nat.leb_spec (fst z') d); [|destruct H2].
      apply in_map_iff in H1, H2. destruct H1 as (T1 & <- & _), H2 as (T2 & E2 & _). injection E2 as E2 _.
      destruct (HE z (or_introl eq_refl)) as (Vz & _). destruct (HE z' (or_intror Hz')) as (Vz' & _).
      destruct (moved_eq _ _ _ _ Vz' Vz E2) as (F1 & F2). apply Nz. replace z with z'; auto.
      destruct z as [e w], z' as [e' w']. cbn [fst snd] in *. f_equal; [lia|].
      rewrite <- (wbox_padm_clip m k w), <- (wbox_padm_clip m k w'), F2; auto; [apply (HW (e', w')); simpl; auto|apply (HW (e, w)); simpl; auto].
Qed.

(** ** the coefficients *)
Notation vp := (supp (polym V)).
Notation lq := (supp (linm V (eq VQ))).
Definition qsum (f : nat * list Z -> Qc) l := fold_right (fun z s => (f z + s)%Qc) 0%Qc l.

Lemma MQ_q a qm b : Forall (eq VQ) qm -> vp a -> lq b -> peq (MQ a (pmul (pmono qm) b)) (pmul (pmono qm) (MQ a b)).
Proof.
  intros Hq Ha Hb. assert (Hb' : lq (pmul (pmono qm) b)) by (apply (lin_qmul V (eq VQ)); auto).
  assert (Ha' : lq (MQ a (pS []))) by (apply (sys_lin SYS); auto using (sys_lq_one SYS)).
  rewrite <- (sys_toS SYS a (pmul (pmono qm) b)), <- (sys_toS SYS a b); auto. apply (sys_q_r SYS); auto.
Qed.
Lemma MQ_terms a l d y : vp a -> (forall z, In z l -> V (part_clip (snd z))) ->
  coef (MQ a (msum (map qterm l))) (qS d y) =
  qsum (fun z => if (fst z <=? d)%nat then coef (MQ a (pS (part_clip (snd z)))) (qS (d - fst z) y) else 0%Qc) l.
Proof.
  intros Ha. induction l as [|z l IH]; intros Hl.
  - cbn [map msum qsum fold_right]. change (msum []) with pzero.
    assert (E : peq (MQ a pzero) pzero) by (transitivity (MQ a (pscale 0%Qc pzero)); [apply M_peq; [reflexivity|intros mo; reflexivity]|rewrite (sys_scale_r a); intros mo; rewrite coef_pscale; cbn; ring]).
    rewrite (E _). reflexivity.
  - cbn [map qsum fold_right].
    rewrite (M_peq TA (piA m k true) k (giam_fuel (gA m k)) a a _ _ (reflexivity a) (msum_cons (qterm z) (map qterm l)) _).
    rewrite (sys_add_r a _ _ _). rewrite coef_padd. rewrite IH by (intros; apply Hl; simpl; auto). f_equal.
    assert (Vz : V (part_clip (snd z))) by (apply Hl; simpl; auto).
    assert (Ez : peq (pmono (qterm z)) (pmul (pmono (repeat VQ (fst z))) (pS (part_clip (snd z))))).
    { unfold qterm, qS. change (pS (part_clip (snd z))) with (pmono [vS (part_clip (snd z))]). rewrite <- pmono_app. apply pmono_perm. apply Permutation_sym, Permutation_app_comm. }
    rewrite (M_peq TA (piA m k true) k (giam_fuel (gA m k)) a a _ _ (reflexivity a) Ez _).
    rewrite (MQ_q a (repeat VQ (fst z)) (pS (part_clip (snd z)))  ltac:(apply Forall_forall; intros v Hv; apply repeat_spec in Hv; auto) Ha (@sys_lq_pS V _ Vz) _).
    apply coef_qmul.
Qed.

Lemma one_any x : V x -> peq (MQ pone (pS x)) (pS x).
Proof.
  intros Hx. unfold M. transitivity (OpN TA (piA m k true) pone (pS x)).
  - apply OpN_peq; [|reflexivity]. apply psubst_pone.
  - pose proof (@sys_lq_pS V x Hx) as Hl. destruct SYS. eapply (OpN_pone TA (piA m k true) V (IA k) (eq VQ) eqVQ_isqv); eassumption.
Qed.

Lemma coef_Ls c : (forall i, In i c -> IA k i) -> forall s x d y, V x -> V y ->
  coef (MQ (special_product c) (pS x)) (qS d y) = Q2Qc (inject_Z (zlen (Ls c s x d y))).
Proof.
  induction c as [|i c IH]; intros Hc s x d y Hx Hy.
  - cbn [Ls]. change (special_product []) with pone. rewrite (one_any x Hx _). unfold pS, pvar, pmono. cbn [coef fold_right fst snd].
    unfold coef. cbn [fold_right fst snd].
    destruct (pair_dec _ _) as [E|E].
    + inversion E; subst. rewrite (proj2 (mono_eqb_perm _ _)) by reflexivity. reflexivity.
    + rewrite (proj2 (mono_eqb_false _ _)); [reflexivity|]. intros HP. apply (Sys.qS_inj 0 x d y) in HP. destruct HP as (<- & <-). apply E. reflexivity.
  - assert (Hi : IA k i) by (apply Hc; simpl; auto). assert (Hc' : forall j, In j c -> IA k j) by (intros; apply Hc; simpl; auto).
    assert (Hv : vp (special_product c)) by (apply poly_in_iff, special_poly_in; auto).
    assert (Hv1 : vp (pS [i])) by (apply sys_lq_vp, sys_lq_pS, row_box; auto).
    assert (E0 : peq (MQ (special_product (i :: c)) (pS x)) (MQ (special_product c) (msum (map qterm (EA m k true i (padm m x)))))).
    { transitivity (MQ (pmul (special_product c) (pS [i])) (pS x)).
      - apply M_peq; [|reflexivity]. cbn [special_product map pprod fold_right]. apply pmul_comm.
      - rewrite (sys_pmul SYS); auto using sys_lq_pS. apply M_peq; [reflexivity|].
        rewrite (sys_pieri SYS i [i]); auto using row_box, sys_lq_pS; [|apply special_P; auto].
        unfold ext, pS. rewrite psubst_pvar. apply P_enum; auto. }
    rewrite (E0 _). rewrite MQ_terms; auto; [|intros z Hz; apply (EA_step i x z Hi Hx Hz)].
    cbn [Ls]. pose proof (fun z => EA_step i x z Hi Hx) as HE. revert HE. generalize (EA m k true i (padm m x)). intros E.
    induction E as [|z E IE]; intros HE; [reflexivity|]. cbn [qsum fold_right flat_map]. fold (qsum (fun z => if (fst z <=? d)%nat then coef (MQ (special_product c) (pS (part_clip (snd z)))) (qS (d - fst z) y) else 0%Qc) E).
    rewrite IE by (intros; apply HE; simpl; auto). rewrite zlen_app, inject_Z_plus.
    assert (G : forall a b, Q2Qc (a + b) = (Q2Qc a + Q2Qc b)%Qc).
    { intros a b. apply Qc_is_canon. unfold Qcplus, Q2Qc, this. rewrite !Qred_correct. reflexivity. }
    rewrite G. f_equal. destruct (fst z <=? d)%nat eqn:Ed; [|reflexivity]. rewrite zlen_map. apply IH; auto. apply HE; simpl; auto.
Qed.
End A.

Lemma c94 m n g c lam : Grassmannian m n = Ok g -> 1 <= m -> (forall i, In i c -> 1 <= i <= n - m) -> in_box m (n - m) lam ->
  exists r, qmult g (special_product c) (pS lam) = Ok r /\ lin_comb (in_box m (n - m)) r /\
    forall d nu, in_box m (n - m) nu ->
      exists L, NoDup L /\
        (forall T, In T L <-> cyl_tableau m (n - m) (moved m (n - m) 0 lam) c T /\
           last T (moved m (n - m) 0 lam) = moved m (n - m) (Z.of_nat d) nu) /\
        coef r (qS d nu) = Q2Qc (inject_Z (zlen L)).
Proof.
  intros Hg Hm Hc Hl. apply gr_inv in Hg. destruct Hg as (_ & Hk & ->).
  destruct (api_prod (sysA m (n - m) Hm Hk true) (special_product c) (pS lam)) as (r & E & Pr & L).
  - apply special_poly_in; auto; lia.
  - apply lin_comb_pS; auto.
  - exists r. split; [exact E|]. split; [auto|]. intros d nu Hn. exists (Ls m (n - m) c 0 lam d nu). split; [apply Ls_nodup; auto|]. split.
    + intros T. apply (Ls_in m (n - m) Hm Hk c Hc 0 lam d nu T); auto.
    + rewrite (Pr _). apply coef_Ls; auto.
Qed.

Lemma c94_qtoS m n g c : Grassmannian m n = Ok g -> 1 <= m -> (forall i, In i c -> 1 <= i <= n - m) ->
  exists r, qtoS g (special_product c) = Ok r /\ lin_comb (in_box m (n - m)) r /\
    forall d nu, in_box m (n - m) nu ->
      exists L, NoDup L /\
        (forall T, In T L <-> cyl_tableau m (n - m) (repz 0 m) c T /\ last T (repz 0 m) = moved m (n - m) (Z.of_nat d) nu) /\
        coef r (qS d nu) = Q2Qc (inject_Z (zlen L)).
Proof.
  intros Hg Hm Hc. pose proof Hg as Hg'. apply gr_inv in Hg'. destruct Hg' as (_ & Hk & _).
  destruct (c94 m n g c [] Hg Hm Hc ltac:(apply in_box_nil; lia)) as (r & E & H).
  replace (moved m (n - m) 0 []) with (repz 0 m) in H; [exists r; split; [exact E|exact H]|].
  transitivity (map (fun j => part [] (Z.to_nat j)) (zrange 0 m)).
  - rewrite map_part_zrange by (cbn; lia). cbn [app]. change (zlen []) with 0. rewrite Z.sub_0_r. reflexivity.
  - unfold moved. apply map_ext_in. intros j Hj. apply in_zrange in Hj. unfold periodic_row. rewrite Z.sub_0_r, Z.mod_small, Z.div_small by lia. lia.
Qed.
