(** IG(m,2n): the class of the longest rows acts by the rotation by n. *)

From Coq Require Import ZArith List Lia Bool Permutation QArith Qcanon Setoid Morphisms.
From Verif Require Import Py OrderFacts PyFacts ModelPart ModelQcalc ModelPoly ModelStr ModelGr Spec
  PolyFacts SuppFacts Enum FillFacts PartFacts ConjFacts PairFacts Word Transfer Extract CommC OpTheory Sys Sys2 SysMap RingC CoefSys PowTwo
  DualWord IndexC ApiIndex GrInv Seidel SeidelSys SysApi ApiA.
Import ListNotations.
Open Scope Z_scope.

(** ** the automaton read backwards *)
Definition hS (a : st) : nat := match a with S0 => 0 | _ => 1 end%nat.
Definition zS (a : st) : nat := match a with S3 => 1 | _ => 0 end%nat.
Lemma nxt_rev a x y b : nxt a x y = Some b -> nxt (std b) (swq x) (swq y) = Some (std a) /\
  (dg (std b) (swq x) (swq y) + hS b = dg a x y + hS a)%nat /\ (ex (std b) (swq x) (swq y) + zS a = ex a x y + zS b)%nat.
Proof. destruct a, x, y; cbn; intros E; try discriminate; injection E as <-; cbn; auto. Qed.

Definition Tw (w : word) : word := rev (wdual w).
Lemma Tw_cons x w : Tw (x :: w) = Tw w ++ [swq x].
Proof. reflexivity. Qed.
Lemma Tw_len w : length (Tw w) = length w.
Proof. unfold Tw. rewrite rev_length, wdual_len. auto. Qed.
Lemma Tw_Tw w : Tw (Tw w) = w.
Proof. unfold Tw, wdual. rewrite map_rev, rev_involutive. apply wdual_wdual. Qed.

Lemma walk_snoc m : forall a w v g z b x y c, length w = m -> length v = m -> walk m a w v = Some (g, z, b) -> nxt b x y = Some c ->
  walk (S m) a (w ++ [x]) (v ++ [y]) = Some ((g + dg b x y)%nat, (z + ex b x y)%nat, c).
Proof.
  induction m as [|m IH]; intros a w v g z b x y c Hw Hv H E.
  - destruct w, v; try discriminate. cbn [walk] in H. injection H as <- <- <-. cbn [walk app]. rewrite E, !Nat.add_0_r. reflexivity.
  - destruct w as [|x1 w]; [discriminate|]. destruct v as [|y1 v]; [discriminate|]. injection Hw as Hw. injection Hv as Hv.
    cbn [walk] in H. destruct (nxt a x1 y1) as [a'|] eqn:En; [|discriminate]. destruct (walk m a' w v) as [[[g1 z1] b1]|] eqn:Ew; [|discriminate].
    injection H as <- <- <-. cbn [app]. change (walk (S (S m)) a (x1 :: w ++ [x]) (y1 :: v ++ [y])) with
      (match nxt a x1 y1 with Some a' => match walk (S m) a' (w ++ [x]) (v ++ [y]) with Some (g, x0, b) => Some (dg a x1 y1 + g, ex a x1 y1 + x0, b)%nat | None => None end | None => None end).
    rewrite En, (IH a' w v g1 z1 b1 x y c Hw Hv Ew E). rewrite !Nat.add_assoc. reflexivity.
Qed.
Lemma walk_rev m : forall a w v g z b, length w = m -> length v = m -> walk m a w v = Some (g, z, b) ->
  exists g' z', walk m (std b) (Tw w) (Tw v) = Some (g', z', std a) /\ (g' + hS b = g + hS a)%nat /\ (z' + zS a = z + zS b)%nat.
Proof.
  induction m as [|m IH]; intros a w v g z b Hw Hv H.
  - destruct w, v; try discriminate. cbn [walk] in H. injection H as <- <- <-. exists O, O. cbn. auto.
  - destruct w as [|x w]; [discriminate|]. destruct v as [|y v]; [discriminate|]. injection Hw as Hw. injection Hv as Hv.
    cbn [walk] in H. destruct (nxt a x y) as [a'|] eqn:En; [|discriminate]. destruct (walk m a' w v) as [[[g1 z1] b1]|] eqn:Ew; [|discriminate].
    injection H as <- <- <-. destruct (IH _ _ _ _ _ _ Hw Hv Ew) as (g' & z' & H1 & H2 & H3). destruct (nxt_rev _ _ _ _ En) as (N1 & N2 & N3).
    rewrite !Tw_cons. eexists _, _. split; [apply (walk_snoc m); [rewrite Tw_len; auto|rewrite Tw_len; auto|exact H1|exact N1]|]. lia.
Qed.

(** ** letters *)
Lemma cE_app w v : cE (w ++ v) = cE w + cE v.
Proof. induction w as [|x w IH]; [reflexivity|]. cbn [app cE]. lia. Qed.
Lemma cR_app w v : cR (w ++ v) = cR w + cR v.
Proof. induction w as [|x w IH]; [reflexivity|]. cbn [app cR]. lia. Qed.
Lemma Tw_cE w : cE (Tw w) = cE w.
Proof. induction w as [|x w IH]; [reflexivity|]. rewrite Tw_cons, cE_app, IH. cbn [cE]. destruct x; cbn [swq isE isR cE cR]; lia. Qed.
Lemma Tw_cR w : cR (Tw w) = zlen w - cE w - cR w.
Proof. induction w as [|x w IH]; [reflexivity|]. rewrite Tw_cons, cR_app, IH, zlen_cons. destruct x; cbn [swq isE isR cE cR]; lia. Qed.
Lemma Tw_ws k n w : In w (wset k n) -> In (Tw w) (wset k n).
Proof. rewrite !in_wset, Tw_len, Tw_cE. auto. Qed.

(** the kernels *)
Definition std_of (d : nat) : st := match d with O => S0 | _ => S3 end.
Lemma kerC_rev k n d e w v p : 0 <= n -> In w (wset k n) -> In v (wset k n) ->
  cR w + Z.of_nat e = Z.of_nat d + cR v -> co (kerC true n d w v) p <> 0%Qc ->
  co (kerC true n d w v) p = co (kerC true n e (Tw w) (Tw v)) p.
Proof.
  intros Hn Hw Hv HA Hne. apply in_wset in Hw, Hv. destruct Hw as [Lw Ew], Hv as [Lv Ev].
  assert (HD : (d < 2)%nat) by (destruct d as [|[|d]]; try lia; exfalso; apply Hne; reflexivity).
  assert (K : forall d w v, (d < 2)%nat -> kerC true n d w v = wterm fC ((/ two) ^ d)%Qc d (walk (Z.to_nat n) (std_of d) w v)).
  { intros [|[|d0]] w0 v0 H0; [| |lia]; cbn [kerC std_of Qcpower]; unfold wterm.
    - reflexivity.
    - destruct (walk (Z.to_nat n) S3 w0 v0) as [[[g x] b]|]; [|reflexivity]. f_equal. }
  rewrite (K d w v HD), co_wterm in *. destruct (walk (Z.to_nat n) (std_of d) w v) as [[[g x] b]|] eqn:E; [|congruence].
  destruct (Nat.eqb_spec (d + g) p) as [Ep|]; [|congruence].
  pose proof (walk_R _ _ _ _ _ _ _ E Lw Lv) as HR.
  assert (Hb : b = S0 \/ b = S3).
  { destruct b; auto; exfalso; apply Hne; cbn [fC]; ring. }
  assert (Ha : chR (std_of d) = Z.of_nat d) by (destruct d as [|[|d]]; try lia; reflexivity).
  assert (He : (e < 2)%nat /\ b = std_of e).
  { rewrite Ha in HR. destruct Hb as [-> | ->]; cbn [chR] in HR.
    - assert (e = O) by lia. subst e. auto.
    - assert (e = 1%nat) by lia. subst e. auto. }
  destruct He as [He ->]. destruct (walk_rev _ _ _ _ _ _ _ Lw Lv E) as (g' & x' & H1 & H2 & H3).
  assert (Es : forall d, std (std_of d) = std_of d) by (intros [|?]; reflexivity). rewrite !Es in H1.
  rewrite (K e (Tw w) (Tw v) He), co_wterm, H1.
  assert (Hh : forall d, (d < 2)%nat -> hS (std_of d) = d /\ zS (std_of d) = d /\ fC (std_of d) = 1%Qc) by (intros [|[|?]] ?; try lia; auto).
  destruct (Hh d HD) as (A1 & A2 & A3), (Hh e He) as (B1 & B2 & B3). rewrite A1, B1 in H2. rewrite A2, B2 in H3.
  destruct (Nat.eqb_spec (e + g') p) as [_|Hx]; [|lia]. rewrite A3, B3.
  assert (T2 : two <> 0%Qc) by discriminate.
  destruct d as [|[|d]], e as [|[|e]]; try lia; cbn [Qcpower].
  - replace x' with x by lia. reflexivity.
  - replace x' with (S x) by lia. cbn [Qcpower]. field. auto.
  - replace x with (S x') by lia. cbn [Qcpower]. field. auto.
  - replace x' with x by lia. reflexivity.
Qed.
Lemma kerC_low k n d w v p : 0 <= n -> In w (wset k n) -> In v (wset k n) -> Z.of_nat d + cR v < cR w -> co (kerC true n d w v) p = 0%Qc.
Proof.
  intros Hn Hw Hv HA. apply in_wset in Hw, Hv. destruct Hw as [Lw Ew], Hv as [Lv Ev].
  assert (G : forall a f c sh, chR a = Z.of_nat d -> co (wterm f c sh (walk (Z.to_nat n) a w v)) p = 0%Qc).
  { intros a f c sh Ha. rewrite co_wterm. destruct (walk (Z.to_nat n) a w v) as [[[g x] b]|] eqn:E; [|reflexivity].
    pose proof (walk_R _ _ _ _ _ _ _ E Lw Lv) as HR. assert (0 <= chR b) by (destruct b; cbn; lia). lia. }
  destruct d as [|[|d]]; cbn [kerC]; [| |reflexivity]; apply G; reflexivity.
Qed.

(** ** the index set of a word, letter by letter *)
Lemma in_ixw w : forall a, In a (ixw w) <-> (1 <= a <= zlen w /\ nth (Z.to_nat (a - 1)) w LE = LR) \/
  (zlen w < a <= 2 * zlen w /\ nth (Z.to_nat (2 * zlen w - a)) w LE = LL).
Proof.
  induction w as [|x w IH]; intros a.
  - cbn. lia.
  - assert (G : In a (map Z.succ (ixw w)) <-> (2 <= a <= zlen w + 1 /\ nth (Z.to_nat (a - 1)) (x :: w) LE = LR) \/
      (zlen w + 1 < a <= 2 * zlen w + 1 /\ nth (Z.to_nat (2 * (zlen w + 1) - a)) (x :: w) LE = LL)).
    { rewrite in_map_iff. split.
      - intros (b & <- & Hb). apply IH in Hb. destruct Hb as [[H1 H2]|[H1 H2]]; [left|right]; (split; [lia|]).
        + replace (Z.to_nat (Z.succ b - 1)) with (S (Z.to_nat (b - 1))) by lia. exact H2.
        + replace (Z.to_nat (2 * (zlen w + 1) - Z.succ b)) with (S (Z.to_nat (2 * zlen w - b))) by lia. exact H2.
      - intros H. exists (a - 1). split; [lia|]. apply IH. destruct H as [[H1 H2]|[H1 H2]]; [left|right]; (split; [lia|]).
        + replace (Z.to_nat (a - 1)) with (S (Z.to_nat (a - 1 - 1))) in H2 by lia. exact H2.
        + replace (Z.to_nat (2 * (zlen w + 1) - a)) with (S (Z.to_nat (2 * zlen w - (a - 1)))) in H2 by lia. exact H2. }
    pose proof (zlen_nonneg w) as Hz. rewrite zlen_cons.
    assert (F1 : forall b, b = 1 -> nth (Z.to_nat (b - 1)) (x :: w) LE = x) by (intros b ->; reflexivity).
    assert (F2 : forall b, b = 2 * zlen w + 2 -> nth (Z.to_nat (2 * (zlen w + 1) - b)) (x :: w) LE = x).
    { intros b ->. replace (Z.to_nat (2 * (zlen w + 1) - (2 * zlen w + 2))) with O by lia. reflexivity. }
    specialize (F1 a). specialize (F2 a).
    destruct x; cbn [ixw].
    + rewrite G. split; [intros [[H1 H2]|[H1 H2]]; [left|right]; (split; [lia|auto])|].
      intros [[H1 H2]|[H1 H2]]; [left|right]; (split; [|auto]).
      * destruct (Z.eq_dec a 1) as [E|]; [rewrite (F1 E) in H2; discriminate|lia].
      * destruct (Z.eq_dec a (2 * zlen w + 2)) as [E|]; [rewrite (F2 E) in H2; discriminate|lia].
    + cbn [In]. rewrite G. split.
      * intros [E|[[H1 H2]|[H1 H2]]]; [left; split; [lia|apply F1; lia]|left|right]; (split; [lia|auto]).
      * intros [[H1 H2]|[H1 H2]].
        -- destruct (Z.eq_dec a 1) as [E|]; [left; lia|right; left; split; [lia|auto]].
        -- destruct (Z.eq_dec a (2 * zlen w + 2)) as [E|]; [rewrite (F2 E) in H2; discriminate|right; right; split; [lia|auto]].
    + rewrite in_app_iff. cbn [In]. rewrite G. split.
      * intros [[[H1 H2]|[H1 H2]]|[E|[]]]; [left|right|right; split; [lia|apply F2; lia]]; (split; [lia|auto]).
      * intros [[H1 H2]|[H1 H2]].
        -- destruct (Z.eq_dec a 1) as [E|]; [rewrite (F1 E) in H2; discriminate|left; left; split; [lia|auto]].
        -- destruct (Z.eq_dec a (2 * zlen w + 2)) as [E|]; [right; left; lia|left; right; split; [lia|auto]].
Qed.
Lemma nth_Tw w j : (j < length w)%nat -> nth j (Tw w) LE = swq (nth (length w - S j) w LE).
Proof.
  intros Hj. unfold Tw. rewrite rev_nth by (rewrite wdual_len; auto). rewrite wdual_len. change LE with (swq LE) at 1. unfold wdual. apply map_nth.
Qed.
Lemma ixw_Tw w a : In a (ixw (Tw w)) <-> 1 <= a <= 2 * zlen w /\ In (if a <=? zlen w then a + zlen w else a - zlen w) (ixw w).
Proof.
  rewrite !in_ixw. assert (Ez : zlen (Tw w) = zlen w) by (unfold zlen; rewrite Tw_len; auto). rewrite Ez.
  assert (Hl : Z.of_nat (length w) = zlen w) by reflexivity.
  assert (S1 : forall x, swq x = LR <-> x = LL) by (intros []; cbn; split; congruence).
  assert (S2 : forall x, swq x = LL <-> x = LR) by (intros []; cbn; split; congruence).
  destruct (Z.leb_spec a (zlen w)) as [Ha|Ha].
  - split.
    + intros [[H1 H2]|[H1 H2]]; [|lia]. split; [lia|]. right. split; [lia|]. rewrite nth_Tw in H2 by lia. apply S1 in H2.
      replace (Z.to_nat (2 * zlen w - (a + zlen w))) with (length w - S (Z.to_nat (a - 1)))%nat by lia. auto.
    + intros (H0 & [[H1 H2]|[H1 H2]]); [lia|]. left. split; [lia|]. rewrite nth_Tw by lia. apply S1.
      replace (length w - S (Z.to_nat (a - 1)))%nat with (Z.to_nat (2 * zlen w - (a + zlen w))) by lia. auto.
  - split.
    + intros [[H1 H2]|[H1 H2]]; [lia|]. split; [lia|]. left. split; [lia|]. rewrite nth_Tw in H2 by lia. apply S2 in H2.
      replace (Z.to_nat (a - zlen w - 1)) with (length w - S (Z.to_nat (2 * zlen w - a)))%nat by lia. auto.
    + intros (H0 & [[H1 H2]|[H1 H2]]); [|lia]. right. split; [lia|]. rewrite nth_Tw by lia. apply S2.
      replace (length w - S (Z.to_nat (2 * zlen w - a)))%nat with (Z.to_nat (a - zlen w - 1)) by lia. auto.
Qed.

(** ** the rotation of the classes *)
Section R.
Variables k n : Z.
Hypothesis Hk : 0 <= k <= n.
Hypothesis Hn1 : k < n.
Notation V := (kstrict_in k (n - k) (n + k)).
Notation ws := (wset k n).

Definition wof (l : list Z) : word := match find (fun w => if list_eq_dec Z.eq_dec (wp 0 w) l then true else false) ws with Some w => w | None => [] end.
Lemma wof_wp w : In w ws -> wof (wp 0 w) = w.
Proof.
  intros Hw. unfold wof. destruct (find _ ws) as [v|] eqn:E.
  - apply find_some in E. destruct E as [Hv E]. destruct (list_eq_dec Z.eq_dec (wp 0 v) (wp 0 w)) as [Ev|]; [|discriminate]. apply (wset_inj k n Hk); auto.
  - pose proof (find_none _ _ E w Hw) as F. cbv beta in F. destruct (list_eq_dec Z.eq_dec (wp 0 w) (wp 0 w)); congruence.
Qed.
Definition TC' (l : list Z) : list Z := wp 0 (Tw (wof l)).
Definition aC (l : list Z) : nat := Z.to_nat (count_ge l (k + 1)).
Lemma V_w l : V l -> exists w, In w ws /\ wp 0 w = l.
Proof. apply (wset_V k n Hk). Qed.
Lemma TC_wp w : In w ws -> TC' (wp 0 w) = wp 0 (Tw w).
Proof. intros Hw. unfold TC'. rewrite wof_wp; auto. Qed.
Lemma TC_V l : V l -> V (TC' l).
Proof. intros Hl. destruct (V_w l Hl) as (w & Hw & <-). rewrite TC_wp by auto. apply (wset_V k n Hk). exists (Tw w). auto using Tw_ws. Qed.
Lemma TC_TC l : V l -> TC' (TC' l) = l.
Proof. intros Hl. destruct (V_w l Hl) as (w & Hw & <-). rewrite TC_wp, TC_wp, Tw_Tw by auto using Tw_ws. auto. Qed.
Lemma aC_wp w : In w ws -> Z.of_nat (aC (wp 0 w)) = cR w.
Proof. intros Hw. unfold aC. pose proof (long_wp k n w Hw) as E. unfold long in E. rewrite E. pose proof (cR_range w). lia. Qed.
Lemma aC_Tw w : In w ws -> cR (Tw w) = n - k - cR w.
Proof. intros Hw. rewrite Tw_cR. pose proof (wset_zlen k n Hk w Hw) as E. apply in_wset in Hw. lia. Qed.

Lemma TC_pieri i l nu : IC k n i -> V l -> V nu ->
  (forall d e, (aC l + e = d + aC nu)%nat -> coef (P (piC k n true) i l) (qS d nu) = coef (P (piC k n true) i (TC' l)) (qS e (TC' nu))) /\
  (forall d, (d + aC nu < aC l)%nat -> coef (P (piC k n true) i l) (qS d nu) = 0%Qc) /\
  (forall e, (aC l + e < aC nu)%nat -> coef (P (piC k n true) i (TC' l)) (qS e (TC' nu)) = 0%Qc).
Proof.
  unfold IC. intros Hi Hl Hnu. destruct (V_w l Hl) as (w & Hw & <-), (V_w nu Hnu) as (v & Hv & <-). rewrite !TC_wp by auto.
  pose proof (Tw_ws k n w Hw) as Hw'. pose proof (Tw_ws k n v Hv) as Hv'. pose proof (aC_wp w Hw) as Aw. pose proof (aC_wp v Hv) as Av.
  pose proof (aC_Tw w Hw) as Bw. pose proof (aC_Tw v Hv) as Bv.
  pose proof (fun d => proj1 (piC_wcoefs k n true i w Hk Hw ltac:(lia)) d v Hv) as C1.
  pose proof (fun d => proj1 (piC_wcoefs k n true i (Tw w) Hk Hw' ltac:(lia)) d (Tw v) Hv') as C2. cbv beta in C1, C2.
  split; [|split].
  - intros d e E. rewrite C1, C2. destruct (Qc_eq_dec (co (kerC true n d w v) (Z.to_nat i)) 0%Qc) as [Z0|NZ].
    + destruct (Qc_eq_dec (co (kerC true n e (Tw w) (Tw v)) (Z.to_nat i)) 0%Qc) as [Z1|NZ]; [congruence|].
      symmetry. rewrite <- (Tw_Tw w) at 2. rewrite <- (Tw_Tw v) at 2. apply (kerC_rev k); auto; lia.
    + apply (kerC_rev k); auto; lia.
  - intros d E. rewrite C1. apply (kerC_low k); auto; lia.
  - intros e E. rewrite C2. apply (kerC_low k); auto; lia.
Qed.

Lemma V_nil : V [].
Proof. apply (ps_nil _ _ _ _ _ _ _ (sysC k n Hk true)). Qed.
Lemma aC_nil : aC [] = O.
Proof. reflexivity. Qed.

(** the class of [S[]] *)
Lemma zlen_repeat {A} (x : A) j : zlen (repeat x j) = Z.of_nat j.
Proof. unfold zlen. rewrite repeat_length. auto. Qed.
Lemma cE_repeat x j : cE (repeat x j) = isE x * Z.of_nat j.
Proof. induction j as [|j IH]; cbn [repeat cE]; lia. Qed.
Lemma wp_Es j : wp 0 (repeat LE j) = [].
Proof. destruct j as [|j]; [reflexivity|]. cbn [repeat wp]. rewrite cE_repeat, zlen_repeat. cbn [isE]. replace (Z.of_nat j - 1 * Z.of_nat j) with 0 by lia. reflexivity. Qed.
Lemma wp_LLs j w : wp 0 (repeat LL j ++ w) = wp 0 w.
Proof. induction j; auto. Qed.
Definition w0 : word := repeat LL (Z.to_nat (n - k)) ++ repeat LE (Z.to_nat k).
Lemma w0_ws : In w0 ws.
Proof. apply in_wset. unfold w0. rewrite app_length, !repeat_length, cE_app, !cE_repeat. cbn [isE]. split; lia. Qed.
Lemma w0_wp : wp 0 w0 = [].
Proof. unfold w0. rewrite wp_LLs. apply wp_Es. Qed.
Lemma rev_repeat {A} (x : A) j : rev (repeat x j) = repeat x j.
Proof. induction j as [|j IH]; [reflexivity|]. cbn [repeat rev]. rewrite IH. symmetry. apply repeat_cons. Qed.
Lemma map_rep {A B} (f : A -> B) x j : map f (repeat x j) = repeat (f x) j.
Proof. induction j as [|j IH]; cbn [repeat map]; congruence. Qed.
Lemma Tw_w0 : Tw w0 = repeat LE (Z.to_nat k) ++ repeat LR (Z.to_nat (n - k)).
Proof. unfold Tw, w0, wdual. rewrite map_app, rev_app_distr, !map_rep, !rev_repeat. reflexivity. Qed.

Definition stairs (N m : Z) : list Z := map (fun j => N - j) (zrange 0 m).
Lemma stairs_S N j : stairs (N + 1) (Z.of_nat (S j)) = (N + 1) :: stairs N (Z.of_nat j).
Proof.
  unfold stairs. apply list_part_eq.
  - cbn [length]. rewrite !map_length, !length_zrange. lia.
  - intros i Hi. rewrite map_length, length_zrange in Hi.
    replace i with (Z.to_nat (Z.of_nat i)) at 1 by lia. rewrite part_map_zrange by lia. destruct i as [|i].
    + unfold part. cbn. lia.
    + rewrite part_cons_S. rewrite part_map_zrange by lia. lia.
Qed.
Lemma wp_Rs j : wp 0 (repeat LR j) = stairs (Z.of_nat j) (Z.of_nat j).
Proof.
  induction j as [|j IH]; [reflexivity|]. cbn [repeat wp]. cbv zeta. rewrite cE_repeat, zlen_repeat. cbn [isE].
  replace (Z.of_nat j + 1 - 0 + 0 * Z.of_nat j) with (Z.of_nat j + 1) by lia. destruct (Z.eqb_spec (Z.of_nat j + 1) 0); [lia|].
  rewrite IH. replace (Z.of_nat (S j)) with (Z.of_nat j + 1) at 1 by lia. rewrite stairs_S. reflexivity.
Qed.
Lemma wp_ERs i j : (0 < j)%nat -> wp 0 (repeat LE i ++ repeat LR j) = stairs (Z.of_nat i + Z.of_nat j) (Z.of_nat j).
Proof.
  intros Hj. induction i as [|i IH]; [apply wp_Rs|]. cbn [repeat app wp]. rewrite IH, cE_app, !cE_repeat. cbn [isE].
  assert (Ez : zlen (repeat LE i ++ repeat LR j) = Z.of_nat i + Z.of_nat j) by (unfold zlen; rewrite app_length, !repeat_length; lia).
  rewrite Ez. replace (Z.of_nat i + Z.of_nat j - (1 * Z.of_nat i + 0 * Z.of_nat j)) with (Z.of_nat j) by lia.
  unfold stairs at 2. apply map_ext_in. intros x Hx. apply in_zrange in Hx. unfold stairs. rewrite part_map_zrange by lia. lia.
Qed.
Lemma TC_nil : TC' [] = stairs n (n - k).
Proof. rewrite <- w0_wp, (TC_wp w0 w0_ws), Tw_w0, wp_ERs by lia. f_equal; lia. Qed.

Notation MQ := (M TC (piC k n true) k (giam_fuel (gC k n))).
Lemma rotC l : V l -> peq (MQ (pS (stairs n (n - k))) (pS l)) (pmono (qS (aC l) (TC' l))).
Proof.
  intros Hl. rewrite <- TC_nil.
  apply (FT_mult (sysC k n Hk true) TC' TC' aC); auto using TC_V, TC_TC, aC_nil. intros; apply TC_pieri; auto.
Qed.
Lemma symC lam m nu : V lam -> V m -> V nu ->
  (forall d e, (aC lam + e = d + aC nu)%nat -> coef (MQ (pS lam) (pS m)) (qS d nu) = coef (MQ (pS (TC' lam)) (pS m)) (qS e (TC' nu))) /\
  (forall d, (d + aC nu < aC lam)%nat -> coef (MQ (pS lam) (pS m)) (qS d nu) = 0%Qc) /\
  (forall e, (aC lam + e < aC nu)%nat -> coef (MQ (pS (TC' lam)) (pS m)) (qS e (TC' nu)) = 0%Qc).
Proof.
  intros. apply (FT_sym (sysC k n Hk true) TC' TC' aC); auto using TC_V, TC_TC, aC_nil. intros; apply TC_pieri; auto.
Qed.
Lemma idx_rot l a : V l -> In a (idxC n k (n - k) (TC' l)) <-> 1 <= a <= 2 * n /\ In (if a <=? n then a + n else a - n) (idxC n k (n - k) l).
Proof.
  intros Hl. destruct (V_w l Hl) as (w & Hw & <-). rewrite TC_wp by auto. pose proof (wset_zlen k n Hk w Hw) as Ez. pose proof (wset_zlen k n Hk _ (Tw_ws _ _ _ Hw)) as Ez'.
  pose proof (idxC_ixw w) as I1. pose proof (idxC_ixw (Tw w)) as I2. pose proof (proj1 (in_wset k n w) Hw) as [_ HE]. rewrite Tw_cE, HE, Ez' in I2. rewrite HE, Ez in I1.
  rewrite I1, I2. rewrite ixw_Tw, Ez. reflexivity.
Qed.
End R.

(** ** the space *)
Section Api.
Variables (m n : Z) (g : gr).
Hypothesis Hg : IsotropicGrassmannian m (2 * n) = Ok g.
Hypothesis Hm : 1 <= m.
Notation k := (n - m).
Notation V := (class_IG m (2 * n)).
Notation L := (map (fun j => n - j) (zrange 0 m)).

Lemma ig_facts : g = gC k n /\ m <= n /\ forall l, V l <-> kstrict_in k (n - k) (n + k) l.
Proof.
  pose proof Hg as H. apply ig_inv in H. destruct H as (n0 & EN & En & Hmn & Eg). assert (Enn : n0 = n) by lia. rewrite Enn in *. clear EN Enn n0.
  split; [exact Eg|]. split; [lia|]. intros l. unfold class_IG. rewrite En. replace (n - k) with m by lia. replace (n + k) with (2 * n - m) by lia. reflexivity.
Qed.
Notation MQ := (M TC (piC k n true) k (giam_fuel (gC k n))).
Lemma qmult_C a b : V a -> V b -> exists r, qmult g (pS a) (pS b) = Ok r /\ peq r (MQ (pS a) (pS b)).
Proof.
  destruct ig_facts as (Eg & Hmn & EV). rewrite !EV. intros Ha Hb.
  assert (LC : forall x, kstrict_in k (n - k) (n + k) x -> lin_comb (kstrict_in k (n - k) (n + k)) (pS x)) by (intros x Hx; apply lin_comb_iff, sys_lq_pS; auto).
  destruct (api_prod (sysC k n ltac:(lia) true) (pS a) (pS b) (lin_comb_poly_in _ (LC _ Ha)) (LC _ Hb)) as (r & E & Pr & _).
  exists r. split; auto. rewrite Eg. exact E.
Qed.
Lemma L_stairs : L = stairs n (n - k).
Proof. unfold stairs. replace (n - k) with m by lia. reflexivity. Qed.
Lemma L_V : V L.
Proof.
  destruct ig_facts as (Eg & Hmn & EV). apply EV. rewrite L_stairs, <- (TC_nil k n) by lia. apply TC_V; [lia|]. apply V_nil. lia.
Qed.
Lemma idx_C lam : V lam -> exists x, part2index g (pS lam) = Ok x /\ peq x (pS (idxC n k (n - k) lam)).
Proof.
  intros Hl. destruct ig_facts as (Eg & Hmn & EV). pose proof Hl as Hl'. apply EV in Hl'. replace (n - k) with m in * by lia.
  destruct (g_class (mkGr TC (n - m) n) (kstrict_in (n - m) m (n + (n - m))) (isotropic_set m (2 * n))
    (idxC n (n - m) m)) with (l := lam) as (r & E & Pr & HV); auto.
  - intros. apply IG1; auto; lia.
  - apply IG6.
  - exists r. rewrite Eg. auto.
Qed.

Lemma c97_rot lam : V lam ->
  exists r mu d x y idx idx',
    qmult g (pS L) (pS lam) = Ok r /\ V mu /\
    is_sum_of r (fun e nu => e = d /\ nu = mu) /\
    part2index g (pS lam) = Ok x /\ peq x (pS idx) /\ part2index g (pS mu) = Ok y /\ peq y (pS idx') /\
    (forall a, In a idx' <-> 1 <= a <= 2 * n /\ In (if a <=? n then a + n else a - n) idx) /\
    Z.of_nat d = count_ge lam (n - m + 1).
Proof.
  intros Hl. destruct ig_facts as (Eg & Hmn & EV). pose proof Hl as Hl'. apply EV in Hl'.
  assert (Hmu : V (TC' k n lam)) by (apply EV, TC_V; auto; lia).
  destruct (qmult_C L lam L_V Hl) as (r & Er & Pr). destruct (idx_C lam Hl) as (x & Ex & Px). destruct (idx_C _ Hmu) as (y & Ey & Py).
  exists r, (TC' k n lam), (aC k lam), x, y, (idxC n k (n - k) lam), (idxC n k (n - k) (TC' k n lam)).
  split; auto. split; auto. split.
  { apply single_term. rewrite Pr, L_stairs. apply rotC; auto; lia. }
  do 4 (split; [assumption|]). split.
  - intros a. apply idx_rot; auto. lia.
  - unfold aC. pose proof (count_ge_nonneg lam (n - m + 1)). lia.
Qed.
Lemma c97_square : exists r, qmult g (pS L) (pS L) = Ok r /\ is_sum_of r (fun e nu => e = Z.to_nat m /\ nu = []).
Proof.
  destruct ig_facts as (Eg & Hmn & EV). destruct (qmult_C L L L_V L_V) as (r & Er & Pr). exists r. split; auto.
  pose proof L_V as HL. apply EV in HL. pose proof (V_nil k n ltac:(lia)) as V0.
  assert (E1 : TC' k n L = []) by (rewrite L_stairs, <- (TC_nil k n) by lia; apply TC_TC; auto; lia).
  assert (E2 : Z.of_nat (aC k L) = m).
  { rewrite L_stairs, <- (TC_nil k n) by lia. rewrite <- (w0_wp k n). rewrite (TC_wp k n) by (try lia; apply w0_ws; lia).
    rewrite (aC_wp k n) by (apply Tw_ws, w0_ws; lia). rewrite (aC_Tw k n) by (try lia; apply w0_ws; lia).
    unfold w0. rewrite cR_app. assert (Z1 : forall x j, x <> LR -> cR (repeat x j) = 0) by (intros x j Hx; induction j; cbn [repeat cR]; [auto|]; destruct x; try congruence; cbn [isR]; lia).
    rewrite !Z1 by discriminate. lia. }
  apply single_term. rewrite Pr, <- E1. replace (Z.to_nat m) with (aC k L) by lia. rewrite L_stairs at 1. apply rotC; auto; lia.
Qed.
Lemma MQ_of a b r R : V a -> V b -> qmult g (pS a) (pS b) = Ok r -> is_sum_of r R -> is_sum_of (MQ (pS a) (pS b)) R.
Proof. intros Ha Hb E S. destruct (qmult_C a b Ha Hb) as (r' & E' & P). rewrite E in E'. injection E' as <-. eapply is_sum_peq; eauto. Qed.
Lemma c97_sym lam mu nu lam' nu' a b rl rn : V lam -> V mu -> V nu ->
  qmult g (pS L) (pS lam) = Ok rl -> is_sum_of rl (fun e kap => e = a /\ kap = lam') ->
  qmult g (pS L) (pS nu) = Ok rn -> is_sum_of rn (fun e kap => e = b /\ kap = nu') ->
  exists r r', qmult g (pS lam) (pS mu) = Ok r /\ qmult g (pS lam') (pS mu) = Ok r' /\
    (forall d e, (a + e = d + b)%nat -> coef r (qS d nu) = coef r' (qS e nu')) /\
    (forall d, (d + b < a)%nat -> coef r (qS d nu) = 0%Qc) /\
    (forall e, (a + e < b)%nat -> coef r' (qS e nu') = 0%Qc).
Proof.
  intros Hl Hmu Hn El Sl En Sn. destruct ig_facts as (Eg & Hmn & EV).
  assert (K : forall l c l' rr, V l -> qmult g (pS L) (pS l) = Ok rr -> is_sum_of rr (fun e kap => e = c /\ kap = l') -> c = aC k l /\ l' = TC' k n l).
  { intros l c l' rr Hv E S. apply (MQ_of L l rr _ L_V Hv E), single_term in S. rewrite L_stairs, rotC in S by (try lia; apply EV; auto).
    apply pmono_qS_inj in S. destruct S; auto. }
  destruct (K _ _ _ _ Hl El Sl) as [-> ->], (K _ _ _ _ Hn En Sn) as [-> ->].
  assert (Hl' : V (TC' k n lam)) by (apply EV, TC_V; [lia|apply EV; auto]).
  destruct (qmult_C lam mu Hl Hmu) as (r & Er & Pr). destruct (qmult_C _ mu Hl' Hmu) as (r' & Er' & Pr').
  exists r, r'. split; auto. split; auto.
  destruct (symC k n ltac:(lia) ltac:(lia) lam mu nu) as (A & B & C); try (apply EV; auto).
  split; [intros; rewrite (Pr _), (Pr' _); auto|]. split; intros; [rewrite (Pr _); auto|rewrite (Pr' _); auto].
Qed.
End Api.
