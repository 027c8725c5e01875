(** The words of PfaffWords.v and the automaton of the Pieri rules. *)

From Coq Require Import ZArith List Lia Bool QArith Qcanon.
From Verif Require Import Py PyFacts FillFacts Enum PartFacts Spec SpecPieri SpecPfaff Word Transfer Extract CommC PowTwo PfaffWords.
From Coq Require FinFun.
From Verif Require WordArrow SeidelP ApiDraw.
Import ListNotations.
Open Scope Z_scope.

Lemma bwords_of x : forall y, length x = length y -> cE x = 0 -> cE y = 0 -> bwords x y.
Proof.
  induction x as [|a x IH]; intros [|b y] L A B; try discriminate; [constructor|]. injection L as L.
  destruct (SeidelP.cE0_cons _ _ A) as (_ & A1 & A2), (SeidelP.cE0_cons _ _ B) as (_ & B1 & B2). constructor; auto.
Qed.
Lemma bwords_cE x y : bwords x y -> length x = length y /\ cE x = 0 /\ cE y = 0.
Proof. induction 1 as [|a b x y Ha Hb Hw (I1 & I2 & I3)]; [auto|]. cbn [length cE]. rewrite I1, I2, I3. destruct a, b; try congruence; cbn; auto. Qed.
Lemma wp0_L x : wp 0 (LL :: x) = wp 0 x. Proof. reflexivity. Qed.
Lemma sz_size x : cE x = 0 -> sz x = size (wp 0 x).
Proof.
  induction x as [|a x IH]; intros A; [reflexivity|]. destruct (SeidelP.cE0_cons _ _ A) as (_ & A1 & A2).
  destruct a; try congruence; cbn [sz]; [rewrite SeidelP.wp0_R by auto|rewrite wp0_L]; rewrite IH by auto; [|reflexivity].
  change (size (zlen x + 1 :: wp 0 x)) with (zlen x + 1 + size (wp 0 x)). reflexivity.
Qed.
Lemma in_bw n x : In x (bw n) <-> length x = n /\ cE x = 0.
Proof.
  revert x. induction n as [|n IH]; intros x; cbn [bw].
  - split; [intros [<-|[]]; auto|]. intros [L _]. destruct x; [left; auto|discriminate].
  - rewrite in_app_iff, !in_map_iff. split.
    + intros [(v & <- & Hv)|(v & <- & Hv)]; apply IH in Hv; cbn; lia.
    + intros [L A]. destruct x as [|a x]; [discriminate|]. injection L as L. destruct (SeidelP.cE0_cons _ _ A) as (_ & A1 & A2). destruct a; try congruence; [right|left]; exists x; (split; [auto|apply IH; auto]).
Qed.
Lemma bw_nodup n : NoDup (bw n).
Proof.
  induction n as [|n IH]; cbn [bw]; [repeat constructor; auto|]. apply ApiDraw.NoDup_app_intro.
  - apply FinFun.Injective_map_NoDup; auto. intros a b E. injection E; auto.
  - apply FinFun.Injective_map_NoDup; auto. intros a b E. injection E; auto.
  - intros x. rewrite !in_map_iff. intros (v & <- & _) (u & E & _). discriminate.
Qed.
Lemma bw_bwords n x y : In x (bw n) -> In y (bw n) -> bwords x y.
Proof. rewrite !in_bw. intros [A1 A2] [B1 B2]. apply bwords_of; congruence. Qed.
Lemma bw_zlen n x : In x (bw n) -> zlen x = Z.of_nat n.
Proof. rewrite in_bw. unfold zlen. intros [-> _]. reflexivity. Qed.
Lemma wp0_inj x y : bwords x y -> wp 0 x = wp 0 y -> x = y.
Proof.
  induction 1 as [|b c x y Hb Hc B IH]; intros E; [reflexivity|]. destruct (bwords_cE _ _ B) as (L & Ex & Ey). pose proof (bwords_len _ _ B) as Lz.
  letters b c; rewrite ?wp0_L in E; rewrite ?SeidelP.wp0_R in E by auto.
  - injection E as E. rewrite IH; auto.
  - assert (In (zlen x + 1) (wp 0 y)) as J by (rewrite <- E; left; auto). apply SeidelP.wp0_range in J; auto. lia.
  - assert (In (zlen y + 1) (wp 0 x)) as J by (rewrite E; left; auto). apply SeidelP.wp0_range in J; auto. lia.
  - rewrite IH; auto.
Qed.
Lemma rems_in x : cE x = 0 -> forall r, In r (rems x) -> length (snd r) = length x /\ cE (snd r) = 0 /\ sz x = sz (snd r) + snd (fst r) /\ In (snd (fst r)) (wp 0 x).
Proof.
  induction x as [|a x IH]; intros A r; [intros []|]. destruct (SeidelP.cE0_cons _ _ A) as (_ & A1 & A2).
  destruct a; try congruence; cbn [rems]; [intros [<-|Hr]|intros Hr].
  - rewrite SeidelP.wp0_R by auto. cbn [fst snd length cE isE sz]. split; auto. split; [lia|]. split; [lia|left; auto].
  - apply in_map_iff in Hr. destruct Hr as ([[c z] u] & <- & Hr). destruct (IH A1 _ Hr) as (I1 & I2 & I3 & I4). cbn [length cE fst snd sz isE] in *. rewrite SeidelP.wp0_R by auto. assert (Lz : zlen u = zlen x) by (unfold zlen; lia). split; [lia|]. split; [lia|]. split; [lia|right; exact I4].
  - apply in_map_iff in Hr. destruct Hr as ([[c z] u] & <- & Hr). destruct (IH A1 _ Hr) as (I1 & I2 & I3 & I4). cbn [length cE fst snd sz isE] in *. rewrite wp0_L. split; [lia|]. split; [lia|]. split; [lia|exact I4].
Qed.
(** the rows of a word *)
Lemma rems_rows x : cE x = 0 -> map (fun r => (fst r, wp 0 (snd r))) (rems x) = take_row (wp 0 x).
Proof.
  induction x as [|a x IH]; intros A; [reflexivity|]. destruct (SeidelP.cE0_cons _ _ A) as (_ & A1 & A2).
  pose proof (rems_in x A1) as R.
  destruct a; try congruence; cbn [rems].
  - rewrite SeidelP.wp0_R by auto. cbn [map take_row]. f_equal. rewrite <- IH by auto. rewrite !map_map. apply map_ext_in. intros [[c z] r] Hr. destruct (R _ Hr) as (R1 & R2 & _). cbn [fst snd] in *. rewrite SeidelP.wp0_R by auto.
    assert (Lz : zlen r = zlen x) by (unfold zlen; lia). rewrite Lz. reflexivity.
  - rewrite wp0_L, <- IH by auto. rewrite map_map. apply map_ext. intros [[c z] r]. reflexivity.
Qed.

Lemma walk_ker fb (s : bool) x y : bwords x y -> 
  match walk (length x) (if s then S3 else S0) x y with
  | Some (g, z, b) => (two ^ z * fb b)%Qc = ker (fun s => fb (if s then S3 else S0)) s x y /\ sz y + (if s then zlen x else 0) = sz x + Z.of_nat g
  | None => ker (fun s => fb (if s then S3 else S0)) s x y = 0%Qc
  end.
Proof.
  intros B. revert s. induction B as [|a b x y Ha Hb B IH]; intros s.
  { cbn. destruct s; split; try ring; reflexivity. }
  pose proof (bwords_len _ _ B) as L. cbn [length walk ker sz]. rewrite zlen_c. assert (0 <= zlen x) by (unfold zlen; lia).
  destruct s; letters a b; cbn [nxt dg ex sz]; try reflexivity;
  match goal with |- context [walk _ ?st x y] => match st with S0 => specialize (IH false) | S3 => specialize (IH true) end end; cbv iota in IH;
  destruct (walk (length x) _ x y) as [[[g z] b]|]; try (rewrite IH; ring); try exact IH; destruct IH as [IH1 IH2];
  (split; [rewrite <- IH1; cbn [Nat.add Qcpower]; ring|rewrite ?Nat2Z.inj_add; lia]).
Qed.
Lemma co_ker fb c sh (s : bool) x y p : bwords x y -> 0 <= p ->
  co (wterm fb c sh (walk (length x) (if s then S3 else S0) x y)) (Z.to_nat p) =
  if sz y + (if s then zlen x else 0) + Z.of_nat sh =? sz x + p then (c * ker (fun s => fb (if s then S3 else S0)) s x y)%Qc else 0%Qc.
Proof.
  intros B Hp. rewrite co_wterm. pose proof (walk_ker fb s x y B) as W. destruct (walk _ _ x y) as [[[g z] b]|].
  - destruct W as [W1 W2]. rewrite W1. destruct (Nat.eqb_spec (sh + g) (Z.to_nat p)), (Z.eqb_spec (sz y + (if s then zlen x else 0) + Z.of_nat sh) (sz x + p)); auto; lia.
  - rewrite W. destruct (_ =? _); ring.
Qed.
(** the kernel is zero when the degrees do not fit *)
Lemma ker_deg fb (s : bool) x y : bwords x y -> ker fb s x y <> 0%Qc -> 0 <= sz y + (if s then zlen x else 0) - sz x <= zlen x.
Proof.
  intros B. revert s. induction B as [|a b x y Ha Hb B IH]; intros s; [destruct s; cbn; lia|]. rewrite zlen_c. assert (0 <= zlen x) by (unfold zlen; lia). pose proof (bwords_len _ _ B) as L.
  destruct s; letters a b; cbn [ker sz]; intros X; try congruence; first [specialize (IH false ltac:(intros Y; apply X; rewrite Y; ring))|specialize (IH true ltac:(intros Y; apply X; rewrite Y; ring))]; cbv iota in IH; lia.
Qed.

Lemma C00_bound x y : bwords x y -> C00 x y <> 0%Qc -> sz y - sz x <= zlen x.
Proof.
  induction 1 as [|a b x y Ha Hb B IH]; [cbn; lia|]. rewrite zlen_c. assert (0 <= zlen x) by (unfold zlen; lia). pose proof (bwords_len _ _ B) as L.
  assert (W : weq x y <> 0%Qc -> sz y = sz x) by (intros W; apply weq_neq in W; congruence).
  letters a b; cbn [C00 sz]; intros X; first [specialize (IH ltac:(intros Y; apply X; rewrite Y; ring))|specialize (W ltac:(intros Y; apply X; rewrite Y; ring))]; lia.
Qed.
Lemma C00_ins x y a : bwords x y -> 1 <= a -> (forall j, In j (wp 0 x) -> j < a) -> sz y = sz x + a -> C00 x y <> 0%Qc -> wp 0 y = a :: wp 0 x /\ C00 x y = 1%Qc.
Proof.
  induction 1 as [|b c x y Hb Hc B IH]; intros Ha Hj Hs Hne; [cbn in Hs; lia|]. destruct (bwords_cE _ _ B) as (_ & Ex & Ey). pose proof (bwords_len _ _ B) as L.
  assert (W : weq x y <> 0%Qc -> x = y) by apply weq_neq.
  letters b c; cbn [C00 sz] in *; rewrite ?wp0_L in *.
  - exfalso. rewrite SeidelP.wp0_R in Hj by auto. specialize (Hj _ ltac:(left; reflexivity)). assert (Hne' : C00 x y <> 0%Qc) by (intros Y; apply Hne; rewrite Y; ring). pose proof (C00_bound x y B Hne'). lia.
  - exfalso. rewrite SeidelP.wp0_R in Hj by auto. specialize (Hj _ ltac:(left; reflexivity)). assert (Hne' : weq x y <> 0%Qc) by (intros Y; apply Hne; rewrite Y; ring). apply W in Hne'. subst y. assert (0 <= zlen x) by (unfold zlen; lia). lia.
  - specialize (W Hne). subst y. rewrite SeidelP.wp0_R by auto. split; [f_equal; lia|]. apply weq_refl; auto.
  - apply IH; auto.
Qed.
Lemma C00_is x y a : bwords x y -> (forall j, In j (wp 0 x) -> j < a) -> wp 0 y = a :: wp 0 x -> C00 x y = 1%Qc.
Proof.
  intros B Hj E. destruct (Qc_eq_dec (C00 x y) 0) as [Z|Z].
  - exfalso. revert Hj E Z. induction B as [|b c x y Hb Hc B IH]; intros Hj E Z; [discriminate|]. destruct (bwords_cE _ _ B) as (L & Ex & Ey).
    pose proof (bwords_len _ _ B) as Lz. letters b c; cbn [C00] in *; rewrite ?wp0_L in *; rewrite ?SeidelP.wp0_R in E by auto; rewrite ?SeidelP.wp0_R in Hj by auto.
    + injection E as E1 E2. specialize (Hj _ ltac:(left; reflexivity)). lia.
    + specialize (Hj _ ltac:(left; reflexivity)). assert (In a (wp 0 y)) by (rewrite E; left; auto). apply SeidelP.wp0_range in H; auto. lia.
    + injection E as E1 E2. assert (x = y) as J by (symmetry; apply wp0_inj; [apply bwords_of|]; auto). apply weq_refl in J; auto. rewrite J in Z. discriminate.
    + apply IH; auto.
  - destruct (bwords_cE _ _ B) as (L & Ex & Ey). apply (C00_ins x y a B); auto.
    + assert (In a (wp 0 y)) as J by (rewrite E; left; auto). apply SeidelP.wp0_range in J; auto. lia.
    + rewrite !sz_size, E by auto. change (size (a :: wp 0 x)) with (a + size (wp 0 x)). lia.
Qed.
(** equal sizes *)
Lemma ker_eqsz x y : bwords x y -> sz y = sz x -> F false x y = weq x y /\ F true x y = weq x y.
Proof.
  assert (P0 : forall s x y, bwords x y -> F s x y <> 0%Qc -> 0 <= sz y + (if s then zlen x else 0) - sz x <= zlen x) by (intros; eapply ker_deg; eauto).
  induction 1 as [|a b x y Ha Hb B IH]; intros E; [split; reflexivity|]. pose proof (bwords_len _ _ B) as L. assert (0 <= zlen x) by (unfold zlen; lia).
  assert (Pf := P0 false x y B). assert (Pt := P0 true x y B). unfold F in *.
  letters a b; cbn [sz] in E; cbn [ker weq]; try (apply IH; lia).
  - split; [reflexivity|]. destruct (Qc_eq_dec (ker (fun _ => 1%Qc) false x y) 0) as [->|Z]; [ring|]. specialize (Pf Z). cbv iota in Pf. lia.
  - split; [|reflexivity]. destruct (Qc_eq_dec (ker (fun _ => 1%Qc) true x y) 0) as [->|Z]; [ring|]. specialize (Pt Z). cbv iota in Pt. lia.
Qed.
