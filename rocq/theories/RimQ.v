(** The rim hook algorithm: reduction of a partition with [m] rows, and the value
    of an alternating function that is periodic up to sign. *)

From Coq Require Import ZArith List Lia Bool Permutation QArith Qcanon Setoid Morphisms.
From Verif Require Import Py OrderFacts PyFacts ModelPart ModelQcalc ModelPoly ModelStr ModelGr Spec SpecMisc
  PolyFacts SuppFacts OpTheory Enum FillFacts PartFacts PieriA QPieriA CylA WSum Sys Sys2 RingA FactsA
  Transfer CommC CoefSys CommD2 Schub ConjFacts RimFacts DualSys LRCore LRSum LRMult LRQuant LRTab.
Import ListNotations.
Open Scope Z_scope.

Definition zq (z : Z) : Qc := Q2Qc (inject_Z z).
Lemma zq_mul a b : zq (a * b) = (zq a * zq b)%Qc.
Proof. unfold zq, Qcmult. apply Qc_is_canon. unfold Q2Qc, this. rewrite !Qred_correct. rewrite inject_Z_mult. reflexivity. Qed.
Lemma zq_pm e : 0 <= e -> zq ((-1) ^ e) = pm (Z.to_nat e).
Proof.
  intros He. rewrite <- (Z2Nat.id e) at 1 by auto. induction (Z.to_nat e) as [|n IH]; [reflexivity|].
  rewrite Nat2Z.inj_succ, Z.pow_succ_r, zq_mul, IH, pm_S by lia. change (zq (-1)) with (-(1))%Qc. ring.
Qed.
Lemma pm_add a b : pm (a + b) = (pm a * pm b)%Qc.
Proof. induction a as [|a IH]; [unfold pm at 2; cbn; ring|]. cbn [Nat.add]. rewrite !pm_S, IH. ring. Qed.

Lemma sdec_app_cons t1 : forall z t2, sdecb (t1 ++ t2) = true -> (forall x, In x t1 -> z < x) -> (forall x, In x t2 -> x < z) ->
  sdecb (t1 ++ z :: t2) = true.
Proof.
  induction t1 as [|a t1 IH]; intros z t2 Hs H1 H2; cbn [app] in *.
  - destruct t2 as [|b t2]; [reflexivity|]. rewrite sdecb_cons, andb_true_iff, Z.ltb_lt. split; auto. apply H2. left; auto.
  - specialize (IH z t2 (sdecb_tl _ _ Hs) (fun x Hx => H1 x (or_intror Hx)) H2).
    destruct t1 as [|b t1]; cbn [app] in *; rewrite sdecb_cons, andb_true_iff, Z.ltb_lt; split; auto.
    + apply H1. left; auto.
    + apply (sdecb_head a (b :: t1 ++ t2)); auto. left; auto.
Qed.
Lemma sdec_split t z : sdecb t = true -> ~ In z t -> exists t1 t2, t = t1 ++ t2 /\ (forall x, In x t1 -> z < x) /\ (forall x, In x t2 -> x < z).
Proof.
  induction t as [|a t IH]; intros Hs Hn; [exists [], []; simpl; intuition|].
  destruct (IH (sdecb_tl _ _ Hs) (fun H => Hn (or_intror H))) as (t1 & t2 & -> & H1 & H2).
  assert (a <> z) by (intros ->; apply Hn; left; auto).
  destruct (Z.lt_ge_cases z a) as [L|L].
  - exists (a :: t1), t2. split; auto. split; auto. intros x [<-|Hx]; auto.
  - exists [], (a :: t1 ++ t2). split; auto. split; [intros x []|]. intros x [<-|Hx]; [lia|].
    pose proof (sdecb_head _ _ Hs x Hx). lia.
Qed.
Lemma rho_inv n y : length y = n -> exists w, length w = n /\ vadd (rho n) w = y.
Proof.
  revert y. induction n as [|n IH]; intros [|a y] H; try discriminate; [exists []; auto|].
  destruct (IH y) as (w & Hw & E); [cbn in H; lia|]. exists (a - Z.of_nat n :: w). cbn [length rho vadd]. rewrite E. split; [lia|]. f_equal. lia.
Qed.
Lemma nth_decp w : forall prev, (forall j, (S j < length w)%nat -> nth (S j) w 0 <= nth j w 0) -> (forall x, In x w -> 0 <= x) ->
  (match w with [] => True | x :: _ => x <= prev end) -> decp prev w.
Proof.
  induction w as [|x w IH]; intros prev H1 H2 H3; [exact I|]. split; [split; auto; apply H2; left; auto|].
  apply IH.
  - intros j Hj. apply (H1 (S j)). cbn [length]. lia.
  - intros y Hy. apply H2. right; auto.
  - destruct w as [|y w]; auto. apply (H1 O). cbn [length]. lia.
Qed.

Section R.
Variables m k : Z.
Hypothesis Hm : 1 <= m.
Hypothesis Hk : 0 <= k.
Notation Mn := (Z.to_nat m).
Notation X l := (vadd (rho Mn) (padm m l)).

Lemma X_len K l : in_box m K l -> length (X l) = Mn.
Proof. apply rho_padm_len; auto. Qed.
Lemma X_nth K l j : in_box m K l -> (j < Mn)%nat -> nth j (X l) 0 = Z.of_nat Mn - 1 - Z.of_nat j + part l j.
Proof.
  intros Hl Hj. rewrite nth_vadd, rho_nth by (rewrite ?rho_len, ?(padm_len m K); auto).
  change (nth j (padm m l) 0) with (part (padm m l) j). rewrite part_padm. auto.
Qed.
Lemma X_zsum K l : in_box m K l -> zsum (X l) = zsum (rho Mn) + size l.
Proof. intros Hl. rewrite zsum_vadd by (rewrite rho_len, (padm_len m K); auto). rewrite zsum_padm. reflexivity. Qed.
Lemma X_in K l : in_box m K l -> forall x, In x (X l) -> 0 <= x < m + K.
Proof.
  intros Hl x Hx. destruct (In_nth _ _ 0 Hx) as (j & Hj & <-). rewrite (X_len K) in Hj by auto. rewrite (X_nth K) by auto.
  destruct Hl as (Hp & _ & H0). pose proof (is_partition_nonneg l j Hp).
  assert (part l j <= part l 0) by (apply (decp_part_le (part l 0)); [apply is_partition_nonneg; auto|apply part_decp; auto]). lia.
Qed.

(** the sequence of a partition determines it *)
Lemma X_build K y : 0 <= K -> length y = Mn -> sdecb y = true -> (forall x, In x y -> 0 <= x < m + K) -> exists l, in_box m K l /\ X l = y.
Proof.
  intros HK Hy Hs Hr. destruct (rho_inv Mn y Hy) as (w & Hw & E).
  assert (NW : forall j, (j < Mn)%nat -> nth j y 0 = Z.of_nat Mn - 1 - Z.of_nat j + nth j w 0).
  { intros j Hj. rewrite <- E, nth_vadd, rho_nth by (rewrite ?rho_len; auto). auto. }
  rewrite <- E in Hs. rewrite (sdec_rho_iff Mn w Hw) in Hs.
  assert (W : wbox m K w).
  { split; [|unfold zlen; lia]. apply nth_decp.
    - intros j Hj. apply Hs. lia.
    - assert (HB : forall d j, (Mn - 1 - j = d)%nat -> (j < Mn)%nat -> 0 <= nth j w 0).
      { induction d as [|d IHd]; intros j Hd Hj.
        - assert (Hi : In (nth j y 0) y) by (apply nth_In; lia). apply Hr in Hi. rewrite NW in Hi by auto. lia.
        - specialize (IHd (S j) ltac:(lia) ltac:(lia)). specialize (Hs j ltac:(lia)). lia. }
      intros x Hx. destruct (In_nth _ _ 0 Hx) as (j & Hj & <-). apply (HB _ j eq_refl). lia.
    - destruct w as [|a w]; auto. assert (Hi : In (nth 0 y 0) y) by (apply nth_In; lia). apply Hr in Hi. rewrite NW in Hi by lia. cbn [nth] in Hi. lia. }
  exists (part_clip w). split; [apply wbox_in_box; auto|]. rewrite (wbox_padm_clip m K); auto.
Qed.

(** removing a rim hook of m + k boxes from the first row *)
Lemma hook_seq K b lam mu : in_box m K lam -> rim_hook 0 b lam mu -> size lam = size mu + (m + k) ->
  in_box m K mu /\ (b < Mn)%nat /\ exists x t1 t2, X lam = x :: t1 ++ t2 /\ length t1 = b /\ X mu = t1 ++ (x - (m + k)) :: t2.
Proof.
  intros Hl (_ & Hp & _ & _ & H1 & H2 & H3) Hs.
  assert (Hb : (b < length lam)%nat).
  { destruct (Nat.lt_ge_cases b (length lam)) as [|H]; auto. exfalso. unfold part in H2 at 2. rewrite nth_overflow in H2 by auto.
    pose proof (is_partition_nonneg mu b Hp). lia. }
  destruct Hl as (Hpl & Hlen & H0). assert (HbM : (b < Mn)%nat) by lia.
  assert (LE : forall j, part mu j <= part lam j).
  { intros j. destruct (Nat.lt_trichotomy j b) as [H|[->|H]]; [|lia|rewrite H3; lia].
    rewrite H1 by lia. destruct Hpl as [_ Hpl]. specialize (Hpl j). lia. }
  assert (Bmu : in_box m K mu).
  { split; auto. split; [|specialize (LE O); lia]. destruct (Nat.le_gt_cases (length mu) (length lam)) as [H|H]; [lia|].
    exfalso. destruct Hp as [Hpos _]. specialize (Hpos (length lam) H).
    specialize (LE (length lam)). unfold part in LE at 2. rewrite (nth_overflow lam) in LE by auto. lia. }
  split; auto. split; auto. assert (Hl : in_box m K lam) by (split; auto).
  pose proof (X_len K lam Hl) as L1. pose proof (X_len K mu Bmu) as L2.
  destruct (X lam) as [|x t] eqn:EX; [cbn in L1; lia|]. cbn [length] in L1.
  assert (NL : forall j, (j < Mn)%nat -> nth j (x :: t) 0 = Z.of_nat Mn - 1 - Z.of_nat j + part lam j) by (intros j Hj; rewrite <- EX; apply (X_nth K); auto).
  assert (NM : forall j, (j < Mn)%nat -> nth j (X mu) 0 = Z.of_nat Mn - 1 - Z.of_nat j + part mu j) by (intros; apply (X_nth K); auto).
  assert (F1 : length (firstn b t) = b) by (apply firstn_length_le; lia).
  assert (EM : X mu = firstn b t ++ nth b (X mu) 0 :: skipn b t).
  { apply nth_ext with (d := 0) (d' := 0).
    - rewrite L2, app_length, F1. cbn [length]. rewrite skipn_length. lia.
    - rewrite L2. intros j Hj. destruct (Nat.lt_trichotomy j b) as [H|[->|H]].
      + rewrite app_nth1 by lia. rewrite <- (firstn_skipn b t) in NL. specialize (NL (S j) ltac:(lia)). cbn [nth] in NL. rewrite app_nth1 in NL by lia.
        rewrite NL, NM, H1 by lia. lia.
      + rewrite app_nth2 by lia. rewrite F1, Nat.sub_diag. reflexivity.
      + rewrite app_nth2 by lia. rewrite F1. replace (j - b)%nat with (S (j - b - 1)) by lia. cbn [nth].
        rewrite <- (firstn_skipn b t) in NL. specialize (NL j Hj). destruct j as [|j]; [lia|]. cbn [nth] in NL. rewrite app_nth2 in NL by lia. rewrite F1 in NL.
        replace (S j - b - 1)%nat with (j - b)%nat by lia. rewrite NL, NM, H3 by lia. lia. }
  exists x, (firstn b t), (skipn b t). rewrite firstn_skipn. split; auto. split; auto. rewrite EM at 1. f_equal. f_equal.
  pose proof (X_zsum K lam Hl) as S1. pose proof (X_zsum K mu Bmu) as S2. rewrite EM in S2. rewrite EX in S1.
  rewrite zsum_app in S2. change (zsum (nth b (X mu) 0 :: skipn b t)) with (nth b (X mu) 0 + zsum (skipn b t)) in S2.
  change (zsum (x :: t)) with (x + zsum t) in S1. rewrite <- (firstn_skipn b t), zsum_app in S1. lia.
Qed.
Lemma hook_exists K lam x t : in_box m K lam -> X lam = x :: t -> m + k <= x -> ~ In (x - (m + k)) t -> exists mu, top_hook (m + k) lam mu.
Proof.
  intros Hl EX Hx Hn. pose proof (rho_padm_sdec m K Hm lam Hl) as Hs. rewrite EX in Hs. pose proof (X_len K lam Hl) as L1. rewrite EX in L1. cbn [length] in L1.
  pose proof (X_in K lam Hl) as HI. rewrite EX in HI.
  destruct (sdec_split t (x - (m + k)) (sdecb_tl _ _ Hs) Hn) as (t1 & t2 & -> & H1 & H2).
  assert (Lt : (length t1 + length t2 = Mn - 1)%nat) by (rewrite app_length in L1; lia).
  destruct (X_build K (t1 ++ (x - (m + k)) :: t2)) as (mu & Bmu & EM).
  - apply in_box_k in Hl; auto.
  - rewrite app_length. cbn [length]. lia.
  - apply sdec_app_cons; auto. apply (sdecb_tl x). auto.
  - intros y Hy. apply in_app_iff in Hy. destruct Hy as [Hy|[<-|Hy]].
    + apply HI. right. apply in_or_app. auto.
    + specialize (HI x (or_introl eq_refl)). lia.
    + apply HI. right. apply in_or_app. auto.
  - exists mu.
    assert (NL : forall j, (j < Mn)%nat -> nth j (x :: t1 ++ t2) 0 = Z.of_nat Mn - 1 - Z.of_nat j + part lam j) by (intros j Hj; rewrite <- EX; apply (X_nth K); auto).
    assert (NM : forall j, (j < Mn)%nat -> nth j (t1 ++ (x - (m + k)) :: t2) 0 = Z.of_nat Mn - 1 - Z.of_nat j + part mu j) by (intros j Hj; rewrite <- EM; apply (X_nth K); auto).
    split.
    + pose proof (X_zsum K lam Hl) as S1. pose proof (X_zsum K mu Bmu) as S2. rewrite EM in S2. rewrite EX in S1.
      rewrite zsum_app in S2. change (zsum ((x - (m + k)) :: t2)) with ((x - (m + k)) + zsum t2) in S2.
      change (zsum (x :: t1 ++ t2)) with (x + zsum (t1 ++ t2)) in S1. rewrite zsum_app in S1. lia.
    + exists (length t1). split; [apply Hl|]. split; [apply Bmu|]. split; [lia|]. split; [lia|].
      assert (PB : part mu (length t1) < part lam (length t1)).
      { pose proof (NL (length t1) ltac:(lia)) as A. pose proof (NM (length t1) ltac:(lia)) as B. rewrite app_nth2, Nat.sub_diag in B by lia. cbn [nth] in B.
        assert (x - (m + k) < nth (length t1) (x :: t1 ++ t2) 0); [|lia].
        destruct t1 as [|a t1]; [cbn [length nth]; lia|]. cbn [length nth]. apply H1.
        rewrite app_nth1 by (cbn [length]; lia). apply nth_In. cbn [length]. lia. }
      split; [|split; auto].
      * intros j Hj. pose proof (NL (S j) ltac:(lia)) as A. pose proof (NM j ltac:(lia)) as B. cbn [nth] in A.
        rewrite app_nth1 in A, B by lia. lia.
      * intros j Hj. destruct (Nat.lt_ge_cases j Mn) as [Hj2|Hj2].
        -- pose proof (NL j ltac:(lia)) as A. pose proof (NM j ltac:(lia)) as B. destruct j as [|j]; [lia|]. cbn [nth] in A.
           rewrite app_nth2 in A, B by lia. replace (S j - length t1)%nat with (S (j - length t1)) in B by lia. cbn [nth] in B. lia.
        -- destruct Hl as (_ & Ll & _). destruct Bmu as (_ & Lm & _). unfold part. rewrite !nth_overflow by lia. auto.
Qed.

Section G.
Variable G : list Z -> Qc.
Hypothesis HG : goodq m k G.

Lemma G_hook K b lam mu : in_box m K lam -> rim_hook 0 b lam mu -> size lam = size mu + (m + k) ->
  G (X lam) = (zq ((-1) ^ (m - (Z.of_nat b + 1))) * G (X mu))%Qc.
Proof.
  intros Hl Hh Hs. destruct (hook_seq K b lam mu Hl Hh Hs) as (Bm & Hb & x & t1 & t2 & E1 & E2 & E3). rewrite E1, E3.
  pose proof (X_len K lam Hl) as L. rewrite E1 in L. cbn [length] in L. rewrite app_length in L.
  destruct HG as [HA HP]. replace x with (x - (m + k) + (m + k)) at 1 by lia.
  pose proof (HP [] (x - (m + k)) (t1 ++ t2)) as H. cbn [app] in H. rewrite H by (cbn [length]; rewrite app_length; lia).
  pose proof (anti_move Mn G HA t1 [] (x - (m + k)) t2) as H2. cbn [app] in H2. rewrite H2 by (cbn [length]; rewrite app_length; lia).
  rewrite zq_pm, E2 by lia. replace (Z.to_nat (m - (Z.of_nat b + 1))) with (Mn - 1 - b)%nat by lia.
  replace (pm (Mn - 1)) with (pm (Mn - 1 - b) * pm b)%Qc by (rewrite <- pm_add; f_equal; lia).
  transitivity (pm (Mn - 1 - b) * (pm b * pm b) * G (t1 ++ (x - (m + k))%Z :: t2))%Qc; [ring|]. rewrite pm_sq. ring.
Qed.
Lemma anti_dup n a u v : anti n G -> length (a :: u ++ a :: v) = n -> G (a :: u ++ a :: v) = 0%Qc.
Proof. intros HA Hn. apply Qc_self_opp. apply (anti_swap n G [] a u a v HA). exact Hn. Qed.
Lemma G_none K lam : in_box m K lam -> ~ in_box m k lam -> (forall mu, ~ top_hook (m + k) lam mu) -> G (X lam) = 0%Qc.
Proof.
  intros Hl Hn Hh. pose proof (X_len K lam Hl) as L1. destruct (X lam) as [|x t] eqn:EX; [cbn in L1; lia|].
  assert (Hx : m + k <= x).
  { destruct (Z.lt_ge_cases x (m + k)) as [H|H]; [|lia]. exfalso. apply Hn. pose proof (X_nth K lam 0 Hl ltac:(lia)) as H0. rewrite EX in H0. cbn [nth] in H0.
    destruct Hl as (A & B & _). split; auto. split; auto. lia. }
  destruct (in_dec Z.eq_dec (x - (m + k)) t) as [Hi|Hi].
  - apply in_split in Hi. destruct Hi as (u & v & ->). destruct HG as [HA HP]. replace x with (x - (m + k) + (m + k)) at 1 by lia.
    pose proof (HP [] (x - (m + k)) (u ++ (x - (m + k)) :: v)) as H. cbn [app] in H. rewrite H by (cbn [length] in *; auto).
    rewrite (anti_dup Mn); auto. ring.
  - exfalso. destruct (hook_exists K lam x t Hl EX Hx Hi) as (mu & Hmu). apply (Hh mu Hmu).
Qed.
End G.

Lemma hook_rows_fun b b' lam mu : rim_hook 0 b lam mu -> rim_hook 0 b' lam mu -> b = b'.
Proof.
  intros (P1 & _ & _ & _ & A1 & A2 & A3) (_ & _ & _ & _ & B1 & B2 & B3).
  destruct (Nat.lt_trichotomy b b') as [H|[H|H]]; auto; exfalso; [rewrite (A3 b') in B2 by auto|rewrite (B3 b) in A2 by auto]; lia.
Qed.
Lemma reduces_fun lam : forall d nu s, rim_reduces m k lam d nu s -> forall d' nu' s', rim_reduces m k lam d' nu' s' -> d = d' /\ nu = nu' /\ s = s'.
Proof.
  intros d nu s H. induction H as [lam Hb|lam mu nu b d s Hb Hh Hs H IH]; intros d' nu' s' H'; inversion H' as [? Hb'|? mu' ? b' ? ? Hb' Hh' Hs' H2]; subst; try contradiction; auto.
  assert (mu = mu') by (apply (top_hook_fun (m + k) lam); [lia|split; eauto|split; eauto]). subst mu'.
  rewrite (hook_rows_fun b' b lam mu Hh' Hh). destruct (IH _ _ _ H2) as (-> & -> & ->). auto.
Qed.
Lemma reduces_box lam d nu s : rim_reduces m k lam d nu s -> in_box m k nu /\ size lam = size nu + Z.of_nat d * (m + k).
Proof. induction 1 as [|? ? ? ? ? ? ? ? ? ? [IH1 IH2]]; split; auto; lia. Qed.

(** every partition with [m] rows is reduced, or all such functions vanish on it *)
Theorem reduction K lam : in_box m K lam ->
  (exists d nu s, rim_reduces m k lam d nu s /\ forall G, goodq m k G -> G (X lam) = (zq s * G (X nu))%Qc) \/
  ((forall d nu s, ~ rim_reduces m k lam d nu s) /\ forall G, goodq m k G -> G (X lam) = 0%Qc).
Proof.
  remember (Z.to_nat (size lam)) as N eqn:EN. revert lam EN. induction N as [N IH] using (well_founded_induction Wf_nat.lt_wf). intros lam -> Hl.
  assert (DB : in_box m k lam \/ ~ in_box m k lam).
  { destruct Hl as (A & B & _). destruct (Z.le_gt_cases (part lam 0) k) as [C|C]; [left; split; auto|right]. intros (_ & _ & D). lia. }
  destruct DB as [Hb|Hb].
  { left. exists O, lam, 1. split; [constructor; auto|]. intros G _. change (zq 1) with 1%Qc. ring. }
  destruct (next_hook (m + k) lam) as [mu|] eqn:E.
  - pose proof Hl as (Pl & _ & _). apply next_hook_iff in E; auto; [|lia]. destruct E as (Hs & b & Hh).
    destruct (hook_seq K b lam mu Hl Hh Hs) as (Bm & _).
    assert (Hsz : 0 <= size mu) by (change (size mu) with (zsum mu); apply (in_box_sum_nonneg m K); auto).
    destruct (IH (Z.to_nat (size mu)) ltac:(lia) mu eq_refl Bm) as [(d & nu & s & H1 & H2)|[H1 H2]].
    + left. exists (S d), nu, ((-1) ^ (m - (Z.of_nat b + 1)) * s). split; [econstructor; eauto|].
      intros G HG. rewrite (G_hook G HG K b lam mu Hl Hh Hs), H2, zq_mul by auto. ring.
    + right. split.
      * intros d nu s H. inversion H as [? Hb'|? mu' ? b' ? ? Hb' Hh' Hs' H3]; subst; [contradiction|].
        assert (mu' = mu) by (apply (top_hook_fun (m + k) lam); [lia|split; eauto|split; eauto]). subst mu'. eapply H1; eauto.
      * intros G HG. rewrite (G_hook G HG K b lam mu Hl Hh Hs), H2 by auto. ring.
  - right. pose proof Hl as (Pl & _ & _).
    assert (HN : forall mu, ~ top_hook (m + k) lam mu) by (intros mu Hmu; apply next_hook_iff in Hmu; auto; [congruence|lia]).
    split.
    + intros d nu s H. inversion H as [? Hb'|? mu' ? b' ? ? Hb' Hh' Hs' H3]; subst; [contradiction|]. apply (HN mu'). split; eauto.
    + intros G HG. apply (G_none G HG K); auto.
Qed.

(** ** the functions that pick out the coefficients of a class *)
Definition sgp (f : Z) : Qc := if Z.even f then 1%Qc else pm (Mn - 1).
Definition chiq (nu g : list Z) : Qc :=
  (sgp (zsum (map (fun x => x / (m + k))%Z g)) * chi (X nu) (map (fun x => x mod (m + k))%Z g))%Qc.
Lemma chiq_good nu : goodq m k (chiq nu).
Proof.
  split.
  - intros n u a b v Hu Hl. unfold chiq. rewrite !map_app. cbn [map].
    rewrite (chi_anti Mn (X nu) n (map (fun x => x mod (m + k)) u)); [|rewrite map_length; auto|rewrite app_length in *; cbn [length] in *; rewrite !map_length; auto].
    replace (zsum (map (fun x => x / (m + k)) u ++ b / (m + k) :: a / (m + k) :: map (fun x => x / (m + k)) v))
      with (zsum (map (fun x => x / (m + k)) u ++ a / (m + k) :: b / (m + k) :: map (fun x => x / (m + k)) v)); [ring|].
    rewrite !zsum_app. unfold zsum. cbn [fold_right]. lia.
  - intros u x v Hl. unfold chiq. rewrite !map_app. cbn [map].
    replace ((x + (m + k)) mod (m + k)) with (x mod (m + k)) by (pose proof (Z.mod_add x 1 (m + k)) as H; rewrite Z.mul_1_l in H; rewrite H; lia).
    replace ((x + (m + k)) / (m + k)) with (x / (m + k) + 1) by (pose proof (Z.div_add x 1 (m + k)) as H; rewrite Z.mul_1_l in H; rewrite H; lia).
    set (f := zsum (map (fun x => x / (m + k)) u ++ x / (m + k) :: map (fun x => x / (m + k)) v)).
    replace (zsum (map (fun x => x / (m + k)) u ++ x / (m + k) + 1 :: map (fun x => x / (m + k)) v)) with (Z.succ f)
      by (unfold f; rewrite !zsum_app; unfold zsum; cbn [fold_right]; lia).
    unfold sgp. rewrite Z.even_succ, <- Z.negb_even. destruct (Z.even f); cbn [negb]; [ring|].
    transitivity ((pm (Mn - 1) * pm (Mn - 1)) * chi (X nu) (map (fun x => x mod (m + k))%Z u ++ (x mod (m + k))%Z :: map (fun x => x mod (m + k))%Z v))%Qc; [rewrite pm_sq; ring|ring].
Qed.
Lemma X_inj K a b : in_box m K a -> in_box m K b -> X a = X b -> a = b.
Proof.
  intros Ha Hb E. apply vadd_inj in E; try (rewrite rho_len, (padm_len m K); auto).
  rewrite <- (clip_padm m K a), <- (clip_padm m K b), E; auto.
Qed.
Lemma chiq_box nu l : in_box m k nu -> in_box m k l -> chiq nu (X l) = if WSum.l_dec l nu then 1%Qc else 0%Qc.
Proof.
  intros Hn Hl. unfold chiq. pose proof (X_in k l Hl) as HI.
  assert (E1 : map (fun x => x mod (m + k)) (X l) = X l).
  { rewrite <- (map_id (X l)) at 2. apply map_ext_in. intros x Hx. apply Z.mod_small. auto. }
  assert (E2 : zsum (map (fun x => x / (m + k)) (X l)) = 0).
  { rewrite (map_ext_in _ (fun _ => 0)) by (intros x Hx; apply Z.div_small; auto). clear. induction (X l); auto. }
  rewrite E1, E2. change (sgp 0) with 1%Qc. rewrite chi_sdec by (apply (rho_padm_sdec m k); auto).
  destruct (list_eq_dec Z.eq_dec _ _) as [E|E], (WSum.l_dec l nu) as [E'|E']; try ring; exfalso.
  - apply E', (X_inj k); auto.
  - apply E. subst; auto.
Qed.
End R.
