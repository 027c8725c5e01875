(** OG(m,N), N even: the classes of the longest rows act by rotations by N/2. *)

From Coq Require Import ZArith List Lia Bool Permutation QArith Qcanon Setoid Morphisms.
From Verif Require Import Py OrderFacts PyFacts ModelPart ModelQcalc ModelPoly ModelStr ModelGr Spec SpecPieri
  PolyFacts SuppFacts Enum FillFacts PartFacts ConjFacts PairFacts Word Transfer TransD Extract CommC CommB OpTheory Sys Sys2 SysMap RingC CoefSys PowTwo
  WordD CoefD CommD CommD2 RingD DualFacts DualWord DualWordD IndexC IndexD Seidel SeidelSys SeidelC.
Import ListNotations.
Open Scope Z_scope.

(** ** signs and flips *)
Definition fl (j : Z) (x : letter) : letter := if Z.odd j then swq x else x.
Definition sg (j : Z) : Qc := if Z.odd j then (- (1))%Qc else 1%Qc.
Lemma sg_add i j : sg (i + j) = (sg i * sg j)%Qc.
Proof. unfold sg. rewrite Z.odd_add. destruct (Z.odd i), (Z.odd j); cbn [xorb]; ring. Qed.
Lemma sg_sq i : (sg i * sg i)%Qc = 1%Qc.
Proof. unfold sg. destruct (Z.odd i); ring. Qed.
Lemma swq_swq x : swq (swq x) = x.
Proof. destruct x; reflexivity. Qed.
Lemma fl_fl i j x : fl i (fl j x) = fl (i + j) x.
Proof. unfold fl. rewrite Z.odd_add. destruct (Z.odd i), (Z.odd j); cbn [xorb]; auto using swq_swq. Qed.
Lemma fl_par i j x : Z.odd i = Z.odd j -> fl i x = fl j x.
Proof. unfold fl. intros ->. reflexivity. Qed.
Lemma sg_par i j : Z.odd i = Z.odd j -> sg i = sg j.
Proof. unfold sg. intros ->. reflexivity. Qed.
Lemma fm_fl j b x y : fm b (fl j x) (fl j y) = fm b x y.
Proof. unfold fl. destruct (Z.odd j); auto. destruct b, x, y; reflexivity. Qed.
Lemma fS_fl j b x y : fS b (fl j x) (fl j y) = (sg j * fS b x y)%Qc.
Proof. unfold fl, sg. destruct (Z.odd j); [|ring]. destruct b, x, y; cbn [swq fS]; ring. Qed.

(** ** the walks without the last letter *)
Lemma walk_app m : forall a w v x y, length w = m -> length v = m -> walk m a (w ++ x) (v ++ y) = walk m a w v.
Proof.
  induction m as [|m IH]; intros a w v x y Hw Hv; [reflexivity|]. destruct w as [|l w]; [discriminate|]. destruct v as [|r v]; [discriminate|].
  injection Hw as Hw. injection Hv as Hv. cbn [walk app]. destruct (nxt a l r); auto. rewrite IH by auto. reflexivity.
Qed.
Lemma bwalk_app tab m e u v x y : length u = S m -> length v = S m -> bwalk tab m e (u ++ [x]) (v ++ [y]) = bwalk tab m e u v.
Proof.
  intros Hu Hv. destruct u as [|l u]; [discriminate|]. destruct v as [|r v]; [discriminate|]. injection Hu as Hu. injection Hv as Hv.
  cbn [bwalk app]. destruct (tab e l r) as [[a sh]|]; auto. rewrite walk_app by auto. reflexivity.
Qed.
Lemma bB_R e x y a sh : bB e x y = Some (a, sh) -> chR a + isR x = Z.of_nat e + isR y.
Proof. destruct e as [|[|[|e]]]; destruct x, y; cbn; intros E; try discriminate; injection E as <- <-; reflexivity. Qed.
Lemma bwalk_R m e u v g z b : length u = S m -> length v = S m -> bwalk bB m e u v = Some (g, z, b) -> chR b + cR u = Z.of_nat e + cR v.
Proof.
  intros Hu Hv. destruct u as [|l u]; [discriminate|]. destruct v as [|r v]; [discriminate|]. injection Hu as Hu. injection Hv as Hv.
  cbn [bwalk]. destruct (bB e l r) as [[a sh]|] eqn:Eb; [|discriminate]. destruct (walk m a u v) as [[[g1 z1] b1]|] eqn:E; [|discriminate].
  intros X. injection X as <- <- <-. pose proof (walk_R _ _ _ _ _ _ _ E Hu Hv). apply bB_R in Eb. cbn [cR]. lia.
Qed.

Fixpoint dwalk (m : nat) (a : st) (w v : word) : option (Qc * st) :=
  match m with
  | O => Some (1%Qc, a)
  | S m => match w, v with
           | x :: w', y :: v' => match dn a x y with
                                 | Some (a', s) => match dwalk m a' w' v' with Some (r, b) => Some ((s * r)%Qc, b) | None => None end
                                 | None => None end
           | _, _ => None
           end
  end.
Lemma drun_dwalk m : forall a w v x y, length w = m -> length v = m ->
  drun m a (w ++ [x]) (v ++ [y]) = match dwalk m a w v with Some (s, b) => (s * fS b x y)%Qc | None => 0%Qc end.
Proof.
  induction m as [|m IH]; intros a w v x y Hw Hv.
  - destruct w, v; try discriminate. cbn [app drun finS dwalk]. ring.
  - destruct w as [|l w]; [discriminate|]. destruct v as [|r v]; [discriminate|]. injection Hw as Hw. injection Hv as Hv.
    cbn [drun dwalk app]. destruct (dn a l r) as [[a' s]|]; auto. rewrite IH by auto. destruct (dwalk m a' w v) as [[s1 b]|]; ring.
Qed.
Lemma dn_R a x y b s : dn a x y = Some (b, s) -> chR b + isR x = chR a + isR y.
Proof. destruct a, x, y; cbn; intros E; try discriminate; injection E as <- <-; reflexivity. Qed.
Lemma dwalk_R m : forall a w v s b, length w = m -> length v = m -> dwalk m a w v = Some (s, b) -> chR b + cR w = chR a + cR v.
Proof.
  induction m as [|m IH]; intros a w v s b Hw Hv H.
  - destruct w, v; try discriminate. cbn in H. injection H as <- <-. cbn [cR]. lia.
  - destruct w as [|x w]; [discriminate|]. destruct v as [|y v]; [discriminate|]. injection Hw as Hw. injection Hv as Hv. cbn [dwalk] in H.
    destruct (dn a x y) as [[a' s1]|] eqn:En; [|discriminate]. destruct (dwalk m a' w v) as [[s2 b2]|] eqn:E; [|discriminate]. injection H as <- <-.
    apply dn_R in En. apply IH in E; auto. cbn [cR]. lia.
Qed.
Definition bdwalk (m e : nat) (u v : word) : option (Qc * st) :=
  match u, v with
  | x :: u', y :: v' => match dB e x y with
                        | Some (a, s) => match dwalk m a u' v' with Some (r, b) => Some ((s * r)%Qc, b) | None => None end
                        | None => None end
  | _, _ => None
  end.
Lemma dB_R e x y a s : dB e x y = Some (a, s) -> chR a + isR x = Z.of_nat e + isR y.
Proof. destruct e as [|[|[|e]]]; destruct x, y; cbn; intros E; try discriminate; injection E as <- <-; reflexivity. Qed.
Lemma bdwalk_R m e u v s b : length u = S m -> length v = S m -> bdwalk m e u v = Some (s, b) -> chR b + cR u = Z.of_nat e + cR v.
Proof.
  intros Hu Hv. destruct u as [|l u]; [discriminate|]. destruct v as [|r v]; [discriminate|]. injection Hu as Hu. injection Hv as Hv.
  cbn [bdwalk]. destruct (dB e l r) as [[a sh]|] eqn:Eb; [|discriminate]. destruct (dwalk m a u v) as [[s1 b1]|] eqn:E; [|discriminate].
  intros X. injection X as <- <-. pose proof (dwalk_R _ _ _ _ _ _ Hu Hv E). apply dB_R in Eb. cbn [cR]. lia.
Qed.
Lemma kS_bdwalk m e u v x y : length u = S m -> length v = S m ->
  kS dB m e (u ++ [x]) (v ++ [y]) = match bdwalk m e u v with Some (s, b) => (s * fS b x y)%Qc | None => 0%Qc end.
Proof.
  intros Hu Hv. destruct u as [|l u]; [discriminate|]. destruct v as [|r v]; [discriminate|]. injection Hu as Hu. injection Hv as Hv.
  cbn [kS bdwalk app]. destruct (dB e l r) as [[a s]|]; auto. rewrite drun_dwalk by auto. destruct (dwalk m a u v) as [[s1 b]|]; ring.
Qed.

(** the kernels in terms of index sets *)
Definition KT (m d : nat) (u : word) (t : letter) (v : word) (t' : letter) : mlist :=
  match bwalk bB m d u v with
  | Some (g, z, b) => match fm b t (fl (chR b) t') with Some (h, c) => [((g + h)%nat, (two ^ z * c)%Qc)] | None => [] end
  | None => []
  end.
Definition KS (m d : nat) (u : word) (t : letter) (v : word) (t' : letter) : Qc :=
  match bdwalk m d u v with Some (s, b) => (s * fS b t (fl (chR b) t'))%Qc | None => 0%Qc end.

Lemma swe_snoc d v x : swe d (v ++ [x]) = v ++ [fl (Z.of_nat d) x].
Proof.
  unfold swe, fl. assert (E : Z.odd (Z.of_nat d) = Nat.odd d).
  { induction d as [|d IH]; [reflexivity|]. rewrite Nat2Z.inj_succ, Z.odd_succ, Nat.odd_succ, <- Z.negb_odd, <- Nat.negb_odd, IH. reflexivity. }
  rewrite E. destruct (Nat.odd d); [rewrite swl_snoc; destruct x; reflexivity|reflexivity].
Qed.
Lemma kT_KT c m d u t v t' : length u = S m -> length v = S m ->
  kT bB m d (u ++ [fl (c + cR u) t]) (swe d (v ++ [fl (c + cR v) t'])) = KT m d u t v t'.
Proof.
  intros Hu Hv. rewrite swe_snoc, fl_fl. unfold kT, KT, tfin. rewrite bwalk_app, !lastl_snoc by auto.
  destruct (bwalk bB m d u v) as [[[g z] b]|] eqn:E; auto. pose proof (bwalk_R _ _ _ _ _ _ _ Hu Hv E) as R.
  replace (Z.of_nat d + (c + cR v)) with (c + cR u + chR b) by lia. rewrite <- (fl_fl (c + cR u) (chR b)), fm_fl. reflexivity.
Qed.
Lemma kS_KS c m d u t v t' : length u = S m -> length v = S m ->
  kS dB m d (u ++ [fl (c + cR u) t]) (swe d (v ++ [fl (c + cR v) t'])) = (sg (c + cR u) * KS m d u t v t')%Qc.
Proof.
  intros Hu Hv. rewrite swe_snoc, fl_fl, kS_bdwalk by auto. unfold KS.
  destruct (bdwalk m d u v) as [[s b]|] eqn:E; [|ring]. pose proof (bdwalk_R _ _ _ _ _ _ Hu Hv E) as R.
  replace (Z.of_nat d + (c + cR v)) with (c + cR u + chR b) by lia. rewrite <- (fl_fl (c + cR u) (chR b)), fS_fl. ring.
Qed.

(** ** read backwards *)
Lemma std_std a : std (std a) = a.
Proof. destruct a; reflexivity. Qed.
Lemma dn_rev a x y b s : dn a x y = Some (b, s) -> dn (std b) (swq x) (swq y) = Some (std a, (sg (isE x) * s)%Qc).
Proof. destruct a, x, y; cbn; intros E; try discriminate; injection E as <- <-; cbn; do 2 f_equal; ring. Qed.
Lemma dwalk_snoc m : forall a w v s b x y c r, length w = m -> length v = m -> dwalk m a w v = Some (s, b) -> dn b x y = Some (c, r) ->
  dwalk (S m) a (w ++ [x]) (v ++ [y]) = Some ((s * r)%Qc, c).
Proof.
  induction m as [|m IH]; intros a w v s b x y c r Hw Hv H E.
  - destruct w, v; try discriminate. cbn in H. injection H as <- <-. cbn [dwalk app]. rewrite E. do 2 f_equal. ring.
  - destruct w as [|x1 w]; [discriminate|]. destruct v as [|y1 v]; [discriminate|]. injection Hw as Hw. injection Hv as Hv.
    cbn [dwalk] in H. destruct (dn a x1 y1) as [[a' s1]|] eqn:En; [|discriminate]. destruct (dwalk m a' w v) as [[s2 b2]|] eqn:Ew; [|discriminate].
    injection H as <- <-. cbn [app]. change (dwalk (S (S m)) a (x1 :: w ++ [x]) (y1 :: v ++ [y])) with
      (match dn a x1 y1 with Some (a', s) => match dwalk (S m) a' (w ++ [x]) (v ++ [y]) with Some (r, b) => Some ((s * r)%Qc, b) | None => None end | None => None end).
    rewrite En, (IH a' w v s2 b2 x y c r Hw Hv Ew E). do 2 f_equal. ring.
Qed.
Lemma dwalk_rev m : forall a w v s b, length w = m -> length v = m -> dwalk m a w v = Some (s, b) ->
  dwalk m (std b) (Tw w) (Tw v) = Some ((sg (cE w) * s)%Qc, std a).
Proof.
  induction m as [|m IH]; intros a w v s b Hw Hv H.
  - destruct w, v; try discriminate. cbn in H. injection H as <- <-. cbn. do 2 f_equal. 
  - destruct w as [|x w]; [discriminate|]. destruct v as [|y v]; [discriminate|]. injection Hw as Hw. injection Hv as Hv. cbn [dwalk] in H.
    destruct (dn a x y) as [[a' s1]|] eqn:En; [|discriminate]. destruct (dwalk m a' w v) as [[s2 b2]|] eqn:E; [|discriminate]. injection H as <- <-.
    rewrite !Tw_cons. rewrite (dwalk_snoc m _ (Tw w) (Tw v) _ _ _ _ _ _ ltac:(rewrite Tw_len; auto) ltac:(rewrite Tw_len; auto) (IH _ _ _ _ _ Hw Hv E) (dn_rev _ _ _ _ _ En)).
    cbn [cE]. rewrite sg_add. do 2 f_equal. ring.
Qed.

(** the two ends *)
Definition ee (a : st) (x y : letter) : nat := match a, x, y with S3, LE, LE => 1 | _, _, _ => 0 end%nat.
Lemma head_tail e x y a sh : bB e x y = Some (a, sh) -> sh = (hS a + ee a x y)%nat /\
  fm (std a) (swq x) (fl (chR (std a)) (swq y)) = Some (ee a x y, (two ^ zS a)%Qc).
Proof.
  destruct e as [|[|[|e]]]; destruct x, y; cbn; intros E; try discriminate; injection E as <- <-; cbn; auto; split; auto; do 2 f_equal; unfold two; ring.
Qed.
Lemma tail_head b x y h c : fm b x (fl (chR b) y) = Some (h, c) -> exists e, 
  bB e (swq x) (swq y) = Some (std b, (hS b + h)%nat) /\ h = ee b x y /\ c = (two ^ zS b)%Qc /\ Z.of_nat e = chR b + isR y - isR x.
Proof.
  destruct b, x, y; cbn; intros E; try discriminate; injection E as <- <-;
    first [exists 0%nat; split; [reflexivity|]; split; [reflexivity|]; split; [cbn; unfold two; ring|reflexivity]
          |exists 1%nat; split; [reflexivity|]; split; [reflexivity|]; split; [cbn; unfold two; ring|reflexivity]
          |exists 2%nat; split; [reflexivity|]; split; [reflexivity|]; split; [cbn; unfold two; ring|reflexivity]].
Qed.
Lemma dhead_tail e x y a s : dB e x y = Some (a, s) -> fS (std a) (swq x) (fl (chR (std a)) (swq y)) = (sg (1 - isR x) * s)%Qc.
Proof.
  destruct e as [|[|[|e]]]; destruct x, y; cbn; intros E; try discriminate; injection E as <- <-; cbn; ring.
Qed.
Lemma dtail_head b x y : fS b x (fl (chR b) y) <> 0%Qc -> exists e,
  dB e (swq x) (swq y) = Some (std b, (sg (1 - isR (swq x)) * fS b x (fl (chR b) y))%Qc) /\ Z.of_nat e = chR b + isR y - isR x.
Proof.
  destruct b, x, y; cbn; intros E; try congruence;
    first [exists 0%nat; split; [cbn; do 2 f_equal; ring|reflexivity]
          |exists 1%nat; split; [cbn; do 2 f_equal; ring|reflexivity]
          |exists 2%nat; split; [cbn; do 2 f_equal; ring|reflexivity]].
Qed.

Lemma KT_rev m d e h w t h' v t' p : length w = m -> length v = m ->
  cR (h :: w) + isR t + Z.of_nat e = Z.of_nat d + (cR (h' :: v) + isR t') -> co (KT m d (h :: w) t (h' :: v) t') p <> 0%Qc ->
  co (KT m d (h :: w) t (h' :: v) t') p = co (KT m e (swq t :: Tw w) (swq h) (swq t' :: Tw v) (swq h')) p.
Proof.
  intros Hw Hv HA Hne. pose proof Hne as Hne0. unfold KT in Hne0.
  destruct (bwalk bB m d (h :: w) (h' :: v)) as [[[g z] b]|] eqn:E; [|exfalso; apply Hne0; reflexivity].
  destruct (fm b t (fl (chR b) t')) as [[h2 c]|] eqn:Ef; [|exfalso; apply Hne0; reflexivity]. clear Hne0.
  pose proof (bwalk_R m d (h :: w) (h' :: v) g z b ltac:(cbn; lia) ltac:(cbn; lia) E) as R.
  unfold KT at 1. rewrite E, Ef. cbn [bwalk] in E. destruct (bB d h h') as [[a sh]|] eqn:Eh; [|discriminate].
  destruct (walk m a w v) as [[[g1 z1] b1]|] eqn:Ew; [|discriminate]. injection E as <- <- <-.
  destruct (tail_head _ _ _ _ _ Ef) as (e' & B & Eh2 & Ec & Re). assert (e' = e) by lia. subst e'.
  destruct (head_tail _ _ _ _ _ Eh) as (Esh & F). destruct (walk_rev _ _ _ _ _ _ _ Hw Hv Ew) as (g' & z' & H1 & H2 & H3).
  unfold KT. cbn [bwalk]. rewrite B, H1, F. f_equal. f_equal. f_equal; [lia|]. rewrite Ec.
  assert (P : forall i j, (two ^ i * two ^ j)%Qc = (two ^ (i + j))%Qc) by (intros i j; induction i as [|i IH]; cbn [Qcpower Nat.add]; [ring|rewrite <- IH; ring]).
  rewrite !P. f_equal. lia.
Qed.
Lemma KS_rev m d e h w t h' v t' : length w = m -> length v = m ->
  cR (h :: w) + isR t + Z.of_nat e = Z.of_nat d + (cR (h' :: v) + isR t') -> KS m d (h :: w) t (h' :: v) t' <> 0%Qc ->
  KS m d (h :: w) t (h' :: v) t' = (sg (1 - isR h) * sg (1 - isR (swq t)) * sg (cE w) * KS m e (swq t :: Tw w) (swq h) (swq t' :: Tw v) (swq h'))%Qc.
Proof.
  intros Hw Hv HA Hne. pose proof Hne as Hne0. unfold KS in Hne0.
  destruct (bdwalk m d (h :: w) (h' :: v)) as [[s b]|] eqn:E; [|congruence].
  assert (Hf : fS b t (fl (chR b) t') <> 0%Qc) by (intros X; apply Hne0; rewrite X; ring). clear Hne0.
  pose proof (bdwalk_R m d (h :: w) (h' :: v) s b ltac:(cbn; lia) ltac:(cbn; lia) E) as R.
  unfold KS at 1. rewrite E. cbn [bdwalk] in E. destruct (dB d h h') as [[a s0]|] eqn:Eh; [|discriminate].
  destruct (dwalk m a w v) as [[s1 b1]|] eqn:Ew; [|discriminate]. injection E as <- <-.
  destruct (dtail_head _ _ _ Hf) as (e' & B & Re). assert (e' = e) by lia. subst e'.
  pose proof (dhead_tail _ _ _ _ _ Eh) as F. pose proof (dwalk_rev _ _ _ _ _ _ Hw Hv Ew) as H1.
  unfold KS. cbn [bdwalk]. rewrite B, H1, F.
  pose proof (sg_sq (1 - isR h)) as Q1. pose proof (sg_sq (1 - isR (swq t))) as Q2. pose proof (sg_sq (cE w)) as Q3.
  set (A := sg (1 - isR h)) in *. set (A2 := sg (1 - isR (swq t))) in *. set (A3 := sg (cE w)) in *. set (f := fS b1 t (fl (chR b1) t')) in *.
  transitivity ((A * A) * (A2 * A2) * (A3 * A3) * (s0 * s1 * f))%Qc; [rewrite Q1, Q2, Q3; ring|ring].
Qed.
Lemma KT_sym m d e h w t h' v t' p : length w = m -> length v = m -> cE (h :: w ++ [t]) = cE (h' :: v ++ [t']) ->
  cR (h :: w) + isR t + Z.of_nat e = Z.of_nat d + (cR (h' :: v) + isR t') ->
  co (KT m d (h :: w) t (h' :: v) t') p = co (KT m e (swq t :: Tw w) (swq h) (swq t' :: Tw v) (swq h')) p.
Proof.
  intros Hw Hv HE HA. destruct (Qc_eq_dec (co (KT m d (h :: w) t (h' :: v) t') p) 0%Qc) as [Z0|NZ]; [|apply KT_rev; auto].
  destruct (Qc_eq_dec (co (KT m e (swq t :: Tw w) (swq h) (swq t' :: Tw v) (swq h')) p) 0%Qc) as [Z1|NZ]; [congruence|]. symmetry.
  rewrite (KT_rev m e d (swq t) (Tw w) (swq h) (swq t') (Tw v) (swq h')); rewrite ?Tw_len; auto; [rewrite !Tw_Tw, !swq_swq; reflexivity|].
  cbn [cE cR] in *. rewrite !cE_app in HE. cbn [cE] in HE. rewrite !Tw_cR. assert (zlen w = zlen v) by (unfold zlen; congruence).
  assert (S : forall x, isR (swq x) = 1 - isE x - isR x) by (intros []; reflexivity). rewrite !S. lia.
Qed.
Lemma KS_sym m d e h w t h' v t' : length w = m -> length v = m -> cE (h :: w ++ [t]) = cE (h' :: v ++ [t']) ->
  cR (h :: w) + isR t + Z.of_nat e = Z.of_nat d + (cR (h' :: v) + isR t') ->
  KS m d (h :: w) t (h' :: v) t' = (sg (1 - isR h) * sg (1 - isR (swq t)) * sg (cE w) * KS m e (swq t :: Tw w) (swq h) (swq t' :: Tw v) (swq h'))%Qc.
Proof.
  intros Hw Hv HE HA. destruct (Qc_eq_dec (KS m d (h :: w) t (h' :: v) t') 0%Qc) as [Z0|NZ]; [|apply KS_rev; auto].
  destruct (Qc_eq_dec (KS m e (swq t :: Tw w) (swq h) (swq t' :: Tw v) (swq h')) 0%Qc) as [Z1|NZ]; [rewrite Z0, Z1; ring|]. exfalso. apply NZ.
  rewrite (KS_rev m e d (swq t) (Tw w) (swq h) (swq t') (Tw v) (swq h')); rewrite ?Tw_len; auto; [rewrite !Tw_Tw, !swq_swq, Z0; ring|].
  cbn [cE cR] in *. rewrite !cE_app in HE. cbn [cE] in HE. rewrite !Tw_cR. assert (zlen w = zlen v) by (unfold zlen; congruence).
  assert (S : forall x, isR (swq x) = 1 - isE x - isR x) by (intros []; reflexivity). rewrite !S. lia.
Qed.

Lemma zet_fl a x : zet (a ++ [x]) = a ++ [fl (zlen a + 1 + cR a) x].
Proof.
  rewrite zet_snoc. do 2 f_equal. unfold fl. destruct x; cbn [isR swq].
  - destruct (Z.odd _); reflexivity.
  - replace (zlen a + 1 - (cR a + 1)) with (zlen a - cR a) by lia. rewrite !Z.odd_add, Z.odd_sub. change (Z.odd 1) with true. destruct (Z.odd (zlen a)), (Z.odd (cR a)); reflexivity.
  - replace (zlen a + 1 - (cR a + 0)) with (zlen a + 1 - cR a) by lia. rewrite !Z.odd_add, Z.odd_sub, Z.odd_add. destruct (xorb (Z.odd (zlen a)) (Z.odd 1)), (Z.odd (cR a)); reflexivity.
Qed.
Lemma zet_zet u : u <> [] -> zet (zet u) = u.
Proof.
  destruct u as [|x a _] using rev_ind; [congruence|]. intros _. rewrite !zet_fl, fl_fl. do 2 f_equal. unfold fl.
  replace (Z.odd _) with false; [reflexivity|]. rewrite Z.odd_add, xorb_nilpotent. reflexivity.
Qed.
Lemma word_ends (u : word) m : length u = S (S m) -> exists h w t, u = h :: w ++ [t] /\ length w = m.
Proof.
  intros H. destruct u as [|h u]; [discriminate|]. injection H as H. destruct u as [|t w _] using rev_ind; [discriminate|].
  exists h, w, t. split; auto. rewrite app_length in H. cbn in H. lia.
Qed.

Section W.
Variables k n : Z.
Hypothesis Hok : okD true k n.
Notation V := (typed_in k (n + 1 - k) (n + k)).
Notation ws := (wset k (n + 1)).
Let Hk : 1 <= k <= n. Proof. apply Hok. Qed.
Notation m0 := (Nat.pred (Z.to_nat n)).

Definition sN (u : word) : word := if Z.odd (n + 1) then swl u else u.
Lemma sN_snoc a x : sN (a ++ [x]) = a ++ [fl (n + 1) x].
Proof. unfold sN, fl. destruct (Z.odd (n + 1)); auto. rewrite swl_snoc. destruct x; reflexivity. Qed.
Lemma sN_sN u : sN (sN u) = u.
Proof. unfold sN. destruct (Z.odd (n + 1)); auto using swl_swl. Qed.
Lemma sN_ws u : In u ws -> In (sN u) ws.
Proof. intros H. unfold sN. destruct (Z.odd (n + 1)); auto. apply (swl_ws k n); auto. Qed.
Lemma zw u : In u ws -> In (zet u) ws.
Proof. apply (zet_ws k n Hk). Qed.
Lemma ne u : In u ws -> u <> [].
Proof. intros H. destruct (ws_len k n Hk u H) as (L & _). destruct u; discriminate. Qed.

Lemma zet_sN h w t : zlen w = n - 1 -> zet (sN (h :: w ++ [t])) = (h :: w) ++ [fl (0 + cR (h :: w)) t].
Proof.
  intros Zw. rewrite app_comm_cons, sN_snoc, zet_fl, fl_fl. do 2 f_equal. apply fl_par. rewrite zlen_cons, Zw.
  replace (n - 1 + 1 + 1 + cR (h :: w) + (n + 1)) with (0 + cR (h :: w) + 2 * (n + 1)) by lia. rewrite (Z.odd_add _ (2 * _)), Z.odd_mul. cbn [Z.odd andb]. apply xorb_false_r.
Qed.
Lemma zet_Tw h w t : zlen w = n - 1 -> zet (Tw (h :: w ++ [t])) = (swq t :: Tw w) ++ [fl (n + 1 + cR (swq t :: Tw w)) (swq h)].
Proof.
  intros Zw. assert (E : Tw (h :: w ++ [t]) = (swq t :: Tw w) ++ [swq h]).
  { rewrite Tw_cons. f_equal. unfold Tw, wdual. rewrite map_app, rev_app_distr. reflexivity. }
  rewrite E, zet_fl. do 2 f_equal. f_equal. rewrite zlen_cons. assert (zlen (Tw w) = zlen w) by (unfold zlen; rewrite Tw_len; auto). lia.
Qed.
Lemma kD_rot p d e x y : In x ws -> In y ws -> cR x + Z.of_nat e = Z.of_nat d + cR y ->
  kD bB dB k n p d (zet (sN x)) (zet (sN y)) = kD bB dB k n p e (zet (Tw x)) (zet (Tw y)).
Proof.
  intros Hx Hy HA. destruct (ws_len k n Hk x Hx) as (Lx & Zx & Ex), (ws_len k n Hk y Hy) as (Ly & Zy & Ey).
  destruct (word_ends x m0 ltac:(lia)) as (h & w & t & -> & Lw). destruct (word_ends y m0 ltac:(lia)) as (h' & v & t' & -> & Lv).
  assert (Zw : zlen w = n - 1) by (unfold zlen; lia). assert (Zv : zlen v = n - 1) by (unfold zlen; lia).
  rewrite !zet_sN, !zet_Tw by auto. unfold kD. rewrite !kT_KT, !kS_KS by (cbn [length]; rewrite ?Tw_len; lia).
  cbn [cR cE] in HA, Ex, Ey. rewrite cR_app in HA. rewrite cR_app in HA. cbn [cR] in HA.
  assert (HE : cE (h :: w ++ [t]) = cE (h' :: v ++ [t'])) by (cbn [cE]; lia).
  rewrite (KT_sym m0 d e h w t h' v t' _ Lw Lv HE) by (cbn [cR]; lia).
  rewrite (KS_sym m0 d e h w t h' v t' Lw Lv HE) by (cbn [cR]; lia).
  set (A := KS m0 e _ _ _ _). f_equal. f_equal. rewrite !Qcmult_assoc. f_equal. rewrite <- !sg_add. apply sg_par.
  cbn [cR]. rewrite Tw_cR, Zw.
  replace (n + 1 + (isR (swq t) + (n - 1 - cE w - cR w))) with (0 + (isR h + cR w) + (1 - isR h) + (1 - isR (swq t)) + cE w + 2 * (n - 1 + isR (swq t) - cE w - cR w)) by lia.
  rewrite (Z.odd_add _ (2 * _)), Z.odd_mul. cbn [Z.odd andb]. rewrite xorb_false_r. reflexivity.
Qed.

Lemma K_low c p d u t v t' : length u = S m0 -> length v = S m0 -> Z.of_nat d + cR (v ++ [t']) < cR (u ++ [t]) ->
  kD bB dB k n p d (u ++ [fl (c + cR u) t]) (v ++ [fl (c + cR v) t']) = 0%Qc.
Proof.
  intros Lu Lv HA. rewrite !cR_app in HA. cbn [cR] in HA. unfold kD. rewrite kT_KT, kS_KS by auto.
  assert (E1 : KT m0 d u t v t' = []).
  { unfold KT. destruct (bwalk bB m0 d u v) as [[[g z] b]|] eqn:E; auto. pose proof (bwalk_R _ _ _ _ _ _ _ Lu Lv E) as R.
    destruct (fm b t (fl (chR b) t')) as [[h2 c2]|] eqn:Ef; auto. destruct (tail_head _ _ _ _ _ Ef) as (e & _ & _ & _ & Re). lia. }
  assert (E2 : KS m0 d u t v t' = 0%Qc).
  { unfold KS. destruct (bdwalk m0 d u v) as [[s b]|] eqn:E; auto. pose proof (bdwalk_R _ _ _ _ _ _ Lu Lv E) as R.
    destruct (Qc_eq_dec (fS b t (fl (chR b) t')) 0%Qc) as [Z0|NZ]; [rewrite Z0; ring|]. destruct (dtail_head _ _ _ NZ) as (e & _ & Re). lia. }
  rewrite E1, E2, co_nil. ring.
Qed.
Lemma kD_low1 p d x y : In x ws -> In y ws -> Z.of_nat d + cR y < cR x -> kD bB dB k n p d (zet (sN x)) (zet (sN y)) = 0%Qc.
Proof.
  intros Hx Hy HA. destruct (ws_len k n Hk x Hx) as (Lx & Zx & Ex), (ws_len k n Hk y Hy) as (Ly & Zy & Ey).
  destruct (word_ends x m0 ltac:(lia)) as (h & w & t & -> & Lw). destruct (word_ends y m0 ltac:(lia)) as (h' & v & t' & -> & Lv).
  rewrite !zet_sN by (unfold zlen; lia). apply K_low; cbn [length]; auto.
Qed.
Lemma kD_low2 p d x y : In x ws -> In y ws -> Z.of_nat d + cR x < cR y -> kD bB dB k n p d (zet (Tw x)) (zet (Tw y)) = 0%Qc.
Proof.
  intros Hx Hy HA. destruct (ws_len k n Hk x Hx) as (Lx & Zx & Ex), (ws_len k n Hk y Hy) as (Ly & Zy & Ey).
  pose proof (Tw_cR x) as C1. pose proof (Tw_cR y) as C2. revert C1 C2.
  destruct (word_ends x m0 ltac:(lia)) as (h & w & t & -> & Lw). destruct (word_ends y m0 ltac:(lia)) as (h' & v & t' & -> & Lv).
  intros C1 C2. rewrite !zet_Tw by (unfold zlen; lia).
  assert (E : forall h w t, Tw (h :: w ++ [t]) = (swq t :: Tw w) ++ [swq h]).
  { intros. rewrite Tw_cons. f_equal. unfold Tw, wdual. rewrite map_app, rev_app_distr. reflexivity. }
  rewrite E in C1, C2. apply K_low; cbn [length]; rewrite ?Tw_len; auto. lia.
Qed.

(** ** classes *)
Definition wofD (l : list Z) : word := match find (fun w => if list_eq_dec Z.eq_dec (encD w) l then true else false) ws with Some w => w | None => [] end.
Lemma wofD_enc w : In w ws -> wofD (encD w) = w.
Proof.
  intros Hw. unfold wofD. destruct (find _ ws) as [v|] eqn:E.
  - apply find_some in E. destruct E as [Hv E]. destruct (list_eq_dec Z.eq_dec (encD v) (encD w)) as [Ev|]; [|discriminate]. apply (encD_inj k n Hk); auto.
  - pose proof (find_none _ _ E w Hw) as F. cbv beta in F. destruct (list_eq_dec Z.eq_dec (encD w) (encD w)); congruence.
Qed.
(** the word of the index set of a class, the middle exchanged if N/2 is odd *)
Definition litD (l : list Z) : word := sN (zet (wofD l)).
Definition rotl (l : list Z) : list Z := encD (zet (Tw (litD l))).
Definition rotl' (l : list Z) : list Z := encD (zet (sN (Tw (zet (wofD l))))).
Definition aR (l : list Z) : nat := Z.to_nat (cR (litD l)).
Lemma V_lit l : V l -> exists x, In x ws /\ l = encD (zet (sN x)) /\ litD l = x.
Proof.
  intros Hl. destruct (encD_ex k n Hk l Hl) as (w & Hw & <-). pose proof (zw w Hw) as H1. exists (sN (zet w)). split; [apply sN_ws; auto|].
  rewrite sN_sN, zet_zet by (apply ne; auto). split; auto. unfold litD. rewrite wofD_enc; auto.
Qed.
Lemma lit_enc x : In x ws -> litD (encD (zet (sN x))) = x.
Proof. intros Hx. unfold litD. rewrite wofD_enc by (apply zw, sN_ws; auto). rewrite zet_zet by (apply ne, sN_ws; auto). apply sN_sN. Qed.
Lemma rotl_V l : V l -> V (rotl l).
Proof. intros Hl. destruct (V_lit l Hl) as (x & Hx & -> & E). unfold rotl. rewrite E. apply (encD_V k n Hk). apply zw, Tw_ws; auto. Qed.
Lemma rotl'_V l : V l -> V (rotl' l).
Proof. intros Hl. destruct (encD_ex k n Hk l Hl) as (w & Hw & <-). unfold rotl'. rewrite wofD_enc by auto. apply (encD_V k n Hk). apply zw, sN_ws, Tw_ws, zw; auto. Qed.
Lemma rotl_rotl' l : V l -> rotl (rotl' l) = l.
Proof.
  intros Hl. destruct (encD_ex k n Hk l Hl) as (w & Hw & <-). unfold rotl'. rewrite wofD_enc by auto. unfold rotl.
  rewrite lit_enc by (apply Tw_ws, zw; auto). rewrite Tw_Tw, zet_zet by (apply ne; auto). reflexivity.
Qed.
Lemma rotl'_rotl l : V l -> rotl' (rotl l) = l.
Proof.
  intros Hl. destruct (V_lit l Hl) as (x & Hx & -> & E). unfold rotl'. unfold rotl. rewrite E, wofD_enc by (apply zw, Tw_ws; auto).
  rewrite zet_zet by (apply ne, Tw_ws; auto). rewrite Tw_Tw. reflexivity.
Qed.
Lemma rotl_pieri i l nu : ID k n i -> V l -> V nu ->
  (forall d e, (aR l + e = d + aR nu)%nat -> coef (P (piD k n true) i l) (qS d nu) = coef (P (piD k n true) i (rotl l)) (qS e (rotl nu))) /\
  (forall d, (d + aR nu < aR l)%nat -> coef (P (piD k n true) i l) (qS d nu) = 0%Qc) /\
  (forall e, (aR l + e < aR nu)%nat -> coef (P (piD k n true) i (rotl l)) (qS e (rotl nu)) = 0%Qc).
Proof.
  intros Hi Hl Hn. destruct (V_lit l Hl) as (x & Hx & El & Ex), (V_lit nu Hn) as (y & Hy & En & Ey).
  unfold aR, rotl. rewrite Ex, Ey. rewrite El, En. clear El En.
  pose proof (cR_range x) as Rx. pose proof (cR_range y) as Ry.
  assert (Hx1 : In (zet (sN x)) ws) by (apply zw, sN_ws; auto). assert (Hy1 : In (zet (sN y)) ws) by (apply zw, sN_ws; auto).
  assert (Hx2 : In (zet (Tw x)) ws) by (apply zw, Tw_ws; auto). assert (Hy2 : In (zet (Tw y)) ws) by (apply zw, Tw_ws; auto).
  pose proof (fun d => proj1 (piD_wcoefs k n true Hok i _ Hx1) d _ Hy1) as C1.
  pose proof (fun d => proj1 (piD_wcoefs k n true Hok i _ Hx2) d _ Hy2) as C2. cbv beta in C1, C2. unfold tabD, dtabD in *. split; [|split].
  - intros d e H. rewrite C1, C2. apply kD_rot; auto; lia.
  - intros d H. rewrite C1. apply kD_low1; auto; lia.
  - intros e H. rewrite C2. apply kD_low2; auto; lia.
Qed.

(** the class of [S[]] *)
Lemma wp1_Es j : wp 1 (repeat LE (S j)) = [].
Proof. cbn [repeat wp]. rewrite cE_repeat, zlen_repeat. cbn [isE]. replace (Z.of_nat j - 1 * Z.of_nat j) with 0 by lia. reflexivity. Qed.
Lemma wp1_Rs j x : x <> LE -> wp 1 (repeat LR j ++ [x]) = stairs (Z.of_nat j) (Z.of_nat j).
Proof.
  intros Hx. induction j as [|j IH]; [destruct x; [congruence|reflexivity|reflexivity]|]. cbn [repeat app].
  rewrite wpD_LR by (rewrite app_length; cbn; lia). rewrite IH, cE_app, cE_repeat.
  assert (Ez : zlen (repeat LR j ++ [x]) = Z.of_nat j + 1) by (unfold zlen; rewrite app_length, repeat_length; cbn; lia).
  rewrite Ez. replace (Z.of_nat (S j)) with (Z.of_nat j + 1) at 1 by lia. rewrite stairs_S. f_equal. destruct x; [congruence| |]; cbn [cE isE]; lia.
Qed.
Lemma wp1_ERs i j x : x <> LE -> wp 1 (repeat LE (S i) ++ repeat LR j ++ [x]) = stairs (Z.of_nat (S i) + Z.of_nat j) (Z.of_nat (S j)).
Proof.
  intros Hx. induction i as [|i IH].
  - cbn [repeat app wp]. rewrite wp1_Rs, cE_app, cE_repeat by auto.
    assert (Ez : zlen (repeat LR j ++ [x]) = Z.of_nat j + 1) by (unfold zlen; rewrite app_length, repeat_length; cbn; lia). rewrite Ez.
    replace (Z.of_nat j + 1 - (isE LR * Z.of_nat j + cE [x])) with (Z.of_nat (S j)) by (destruct x; [congruence| |]; cbn [cE isE]; lia).
    unfold stairs at 2. apply map_ext_in. intros y Hy. apply in_zrange in Hy. unfold stairs.
    destruct (Z.eq_dec y (Z.of_nat j)) as [->|Hne].
    + rewrite part_over by (rewrite map_length, length_zrange; lia). lia.
    + rewrite part_map_zrange by lia. lia.
  - change (repeat LE (S (S i)) ++ repeat LR j ++ [x]) with (LE :: (repeat LE (S i) ++ repeat LR j ++ [x])). cbn [wp]. rewrite IH, !cE_app, !cE_repeat.
    assert (Ez : zlen (repeat LE (S i) ++ repeat LR j ++ [x]) = Z.of_nat (S i) + Z.of_nat j + 1) by (unfold zlen; rewrite !app_length, !repeat_length; cbn [length]; lia). rewrite Ez.
    replace (Z.of_nat (S i) + Z.of_nat j + 1 - (isE LE * Z.of_nat (S i) + (isE LR * Z.of_nat j + cE [x]))) with (Z.of_nat (S j)) by (destruct x; [congruence| |]; cbn [cE isE]; lia).
    unfold stairs at 2. apply map_ext_in. intros y Hy. apply in_zrange in Hy. unfold stairs. rewrite part_map_zrange by lia. lia.
Qed.
Definition spin : list Z := stairs n (n + 1 - k) ++ (if Z.odd k then [0] else []).
Lemma w0_in : In (w0 k (n + 1)) ws.
Proof. apply (w0_ws k (n + 1)); lia. Qed.
Lemma w0_snoc : exists a, w0 k (n + 1) = a ++ [LE].
Proof.
  unfold w0. destruct (Z.to_nat k) as [|j] eqn:E; [lia|]. exists (repeat LL (Z.to_nat (n + 1 - k)) ++ repeat LE j). rewrite <- app_assoc. f_equal. cbn [repeat]. apply repeat_cons.
Qed.
Lemma w0_enc : encD (w0 k (n + 1)) = [].
Proof.
  destruct w0_snoc as (a & E). unfold encD. rewrite E at 1. rewrite lastl_snoc. unfold w0.
  assert (G : forall j w, wp 1 (repeat LL j ++ w) = wp 1 w) by (intros j w; induction j; auto). rewrite G. destruct (Z.to_nat k) as [|j] eqn:Ek; [lia|]. apply wp1_Es.
Qed.
Lemma lit_nil : litD [] = w0 k (n + 1).
Proof.
  unfold litD. rewrite <- w0_enc at 1. rewrite wofD_enc by apply w0_in. destruct w0_snoc as (a & ->). rewrite zet_fl, sN_snoc, fl_fl. do 2 f_equal. unfold fl. destruct (Z.odd _); reflexivity.
Qed.
Lemma aR_nil : aR [] = O.
Proof.
  unfold aR. rewrite lit_nil. unfold w0. rewrite cR_app.
  assert (Z1 : forall x j, x <> LR -> cR (repeat x j) = 0) by (intros x j Hx; induction j; cbn [repeat cR]; [auto|]; destruct x; try congruence; cbn [isR]; lia).
  rewrite !Z1 by discriminate. reflexivity.
Qed.
Lemma rotl_nil : rotl [] = spin.
Proof.
  unfold rotl. rewrite lit_nil, (Tw_w0 k (n + 1)) by lia. destruct (Z.to_nat (n + 1 - k)) as [|j] eqn:Ej; [lia|]. destruct (Z.to_nat k) as [|i] eqn:Ei; [lia|].
  change (repeat LR (S j)) with (LR :: repeat LR j). rewrite (repeat_cons (A := letter) j LR), app_assoc, zet_fl. set (x := fl _ LR). assert (Hx : x = if Z.odd k then LR else LL).
  { unfold x, fl. rewrite cR_app. assert (Z1 : cR (repeat LE (S i)) = 0) by (generalize (S i); intros z; induction z; cbn [repeat cR]; auto).
    assert (Z2 : cR (repeat LR j) = Z.of_nat j) by (clear; induction j; cbn [repeat cR isR]; lia). rewrite Z1, Z2.
    assert (Z3 : zlen (repeat LE (S i) ++ repeat LR j) = n) by (unfold zlen; rewrite app_length, !repeat_length; lia). rewrite Z3.
    replace (n + 1 + (0 + Z.of_nat j)) with (k + 1 + 2 * Z.of_nat j) by lia. rewrite (Z.odd_add _ (2 * _)), Z.odd_mul, Z.odd_add. cbn [Z.odd andb]. rewrite xorb_false_r.
    destruct (Z.odd k); reflexivity. }
  unfold encD. rewrite lastl_snoc, <- app_assoc, wp1_ERs by (rewrite Hx; destruct (Z.odd k); discriminate). unfold spin.
  replace (Z.of_nat (S i) + Z.of_nat j) with n by lia. replace (Z.of_nat (S j)) with (n + 1 - k) by lia. rewrite Hx. destruct (Z.odd k); [reflexivity|rewrite app_nil_r; reflexivity].
Qed.

Notation MQ := (M TD (piD k n true) k (giam_fuel (gD k n))).
Lemma rotDs l : V l -> peq (MQ (pS spin) (pS l)) (pmono (qS (aR l) (rotl l))).
Proof.
  intros Hl. rewrite <- rotl_nil.
  apply (FT_mult (sysD k n true Hok) rotl rotl' aR); auto using rotl_V, rotl'_V, rotl_rotl', rotl'_rotl, aR_nil. intros; apply rotl_pieri; auto.
Qed.
Lemma symDs lam m nu : V lam -> V m -> V nu ->
  (forall d e, (aR lam + e = d + aR nu)%nat -> coef (MQ (pS lam) (pS m)) (qS d nu) = coef (MQ (pS (rotl lam)) (pS m)) (qS e (rotl nu))) /\
  (forall d, (d + aR nu < aR lam)%nat -> coef (MQ (pS lam) (pS m)) (qS d nu) = 0%Qc) /\
  (forall e, (aR lam + e < aR nu)%nat -> coef (MQ (pS (rotl lam)) (pS m)) (qS e (rotl nu)) = 0%Qc).
Proof.
  intros. apply (FT_sym (sysD k n true Hok) rotl rotl' aR); auto using rotl_V, rotl'_V, rotl_rotl', rotl'_rotl, aR_nil. intros; apply rotl_pieri; auto.
Qed.

(** ** index sets *)
Lemma idx_word w : In w ws -> idxD n k (n + 1 - k) (encD w) = ixw (zet w).
Proof.
  intros Hw. pose proof (encD_V k n Hk w Hw) as HV. pose proof (upD_in n k (n + 1 - k) ltac:(lia) ltac:(lia) ltac:(lia) ltac:(lia) (encD w) HV) as HU.
  assert (Hu : exists u, In u ws /\ wp 0 u = upD n k (n + 1 - k) (encD w)) by (apply (wset_V k (n + 1) ltac:(lia)); exact HU).
  destruct Hu as (u & Hu & Eu).
  assert (Ez : encD (zet u) = encD w).
  { rewrite <- (dnD_word k n Hk) by auto. rewrite Eu. apply dnD_upD; auto; lia. }
  apply (encD_inj k n Hk) in Ez; auto using zw. subst w. rewrite zet_zet by (apply ne; auto). unfold idxD. rewrite <- Eu.
  destruct (ws_len k n Hk u Hu) as (_ & Zu & EE). pose proof (idxC_ixw u) as E. rewrite Zu, EE in E. exact E.
Qed.
Definition mid (a : Z) : Z := if Z.odd (n + 1) then swf n a else a.
Lemma swf_swf a : swf n (swf n a) = a.
Proof.
  unfold swf. destruct (Z.eqb_spec a (n + 1)); [|destruct (Z.eqb_spec a (n + 2))].
  - destruct (Z.eqb_spec (n + 2) (n + 1)), (Z.eqb_spec (n + 2) (n + 2)); lia.
  - destruct (Z.eqb_spec (n + 1) (n + 1)); lia.
  - destruct (Z.eqb_spec a (n + 1)), (Z.eqb_spec a (n + 2)); lia.
Qed.
Lemma ixw_sN u a : In u ws -> In a (ixw (sN u)) <-> In (mid a) (ixw u).
Proof.
  intros Hu. unfold sN, mid. destruct (Z.odd (n + 1)); [|reflexivity]. destruct (ws_len k n Hk u Hu) as (Lu & Zu & _).
  rewrite <- sw_ixw by lia. replace (zlen u - 1) with n by lia. unfold sw. rewrite in_map_iff. split.
  - intros (x & <- & Hx). rewrite swf_swf. auto.
  - intros H. exists (swf n a). split; auto. apply swf_swf.
Qed.
Lemma idx_rotD l a : V l -> In a (idxD n k (n + 1 - k) (rotl l)) <->
  1 <= a <= 2 * (n + 1) /\ In (mid (if a <=? n + 1 then a + (n + 1) else a - (n + 1))) (idxD n k (n + 1 - k) l).
Proof.
  intros Hl. destruct (V_lit l Hl) as (x & Hx & -> & E). unfold rotl. rewrite E.
  rewrite !idx_word by (first [apply zw, Tw_ws; auto|apply zw, sN_ws; auto]). rewrite !zet_zet by (first [apply ne, Tw_ws; auto|apply ne, sN_ws; auto]).
  rewrite ixw_Tw. destruct (ws_len k n Hk x Hx) as (_ & Zx & _). rewrite Zx. rewrite <- ixw_sN, sN_sN by (apply sN_ws; auto). reflexivity.
Qed.
Lemma cnt_ixw w : zlen (filter (fun a => a <=? zlen w) (ixw w)) = cR w.
Proof.
  assert (B : forall w a, In a (ixw w) -> 1 <= a <= 2 * zlen w).
  { clear. intros w a H. apply in_ixw in H. pose proof (zlen_nonneg w). lia. }
  induction w as [|x w IH]; [reflexivity|]. rewrite zlen_cons.
  assert (G : filter (fun a => a <=? zlen w + 1) (map Z.succ (ixw w)) = map Z.succ (filter (fun a => a <=? zlen w) (ixw w))).
  { clear. induction (ixw w) as [|a p IH]; [reflexivity|]. cbn [map filter]. destruct (Z.leb_spec (Z.succ a) (zlen w + 1)), (Z.leb_spec a (zlen w)); try lia; rewrite IH; reflexivity. }
  assert (GL : zlen (filter (fun a => a <=? zlen w + 1) (map Z.succ (ixw w))) = cR w) by (rewrite G; unfold zlen at 1; rewrite map_length; exact IH).
  pose proof (zlen_nonneg w). destruct x; cbn [ixw cR isR].
  - lia.
  - cbn [filter]. destruct (Z.leb_spec 1 (zlen w + 1)); [|lia]. rewrite zlen_cons. lia.
  - rewrite filter_app. cbn [filter]. destruct (Z.leb_spec (2 * zlen w + 2) (zlen w + 1)); [lia|]. rewrite app_nil_r. lia.
Qed.
Lemma aR_count l : V l -> Z.of_nat (aR l) = zlen (filter (fun a => mid a <=? n + 1) (idxD n k (n + 1 - k) l)).
Proof.
  intros Hl. destruct (V_lit l Hl) as (x & Hx & -> & E). unfold aR. rewrite E. pose proof (cR_range x) as R. rewrite Z2Nat.id by lia.
  rewrite idx_word by (apply zw, sN_ws; auto). rewrite zet_zet by (apply ne, sN_ws; auto). destruct (ws_len k n Hk x Hx) as (Lx & Zx & _).
  rewrite <- (cnt_ixw x), Zx. unfold sN, mid. destruct (Z.odd (n + 1)); [|reflexivity]. rewrite <- sw_ixw by lia. replace (zlen x - 1) with n by lia.
  unfold sw. generalize (ixw x). intros p. induction p as [|a p IH]; [reflexivity|]. cbn [map filter]. rewrite swf_swf. destruct (a <=? n + 1); rewrite ?zlen_cons; lia.
Qed.
End W.
