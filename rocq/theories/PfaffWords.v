(** Strict partitions as words, the Pieri kernel of the maximal isotropic spaces, and two
    alternating sums over it: the lemmas behind Pfaff.v. *)

From Coq Require Import ZArith List Lia Bool QArith Qcanon.
From Verif Require Import Py PyFacts FillFacts Enum PartFacts Word Transfer.
Import ListNotations.
Open Scope Z_scope.
Open Scope Qc_scope.

(** *** the kernel *)
Section Kernel.
Variable fin : bool -> Qc.
Fixpoint ker (s : bool) (x y : word) : Qc :=
  match x, y with
  | [], [] => fin s
  | a :: x', b :: y' =>
      match s, a, b with
      | false, LL, LL => ker false x' y' | false, LR, LR => ker false x' y' | false, LL, LR => ker true x' y'
      | true, LL, LL => ker true x' y' | true, LR, LR => ker true x' y' | true, LR, LL => two * ker false x' y'
      | _, _, _ => 0
      end
  | _, _ => 0
  end.
End Kernel.
Definition F : bool -> word -> word -> Qc := ker (fun _ => 1).
Definition G : bool -> word -> word -> Qc := ker (fun s => if s then two else 1).
(** no letter E, the same length *)
Inductive bwords : word -> word -> Prop :=
| bw_nil : bwords [] []
| bw_cons a b x y : a <> LE -> b <> LE -> bwords x y -> bwords (a :: x) (b :: y).
Fixpoint sz (x : word) : Z := match x with [] => 0%Z | LR :: x' => (zlen x' + 1 + sz x')%Z | _ :: x' => sz x' end.

Ltac kstep := unfold F, G in *; cbn [ker] in *; fold F in *; fold G in *.
Ltac letters a b := destruct a; try congruence; destruct b; try congruence.

Lemma FG x y : bwords x y -> G true y x = two * F false x y /\ G false y x = F true x y.
Proof.
  induction 1 as [|a b x y Ha Hb H [IH1 IH2]]; [unfold F, G, two; cbn; split; ring|].
  unfold F, G in *. letters a b; cbn [ker]; rewrite ?IH1, ?IH2; split; unfold two; ring.
Qed.

(** *** removing a part *)
Fixpoint rems (x : word) : list (Qc * Z * word) :=
  match x with
  | [] => []
  | LR :: x' => (1, (zlen x' + 1)%Z, LL :: x') :: map (fun r => (- fst (fst r), snd (fst r), LR :: snd r)) (rems x')
  | a :: x' => map (fun r => (fst (fst r), snd (fst r), a :: snd r)) (rems x')
  end.
Definition Hs (s : bool) (x y : word) : Qc := qsum (fun r => fst (fst r) * F s (snd r) y) (rems x).
Fixpoint par (x : word) : Qc := match x with [] => 1 | LR :: x' => - par x' | _ :: x' => par x' end.
Fixpoint weq (x y : word) : Qc :=
  match x, y with
  | [], [] => 1
  | LR :: x', LR :: y' => weq x' y'
  | LL :: x', LL :: y' => weq x' y'
  | _, _ => 0
  end.
Lemma weq_refl x y : bwords x y -> x = y -> weq x y = 1.
Proof. intros B. induction B as [|a b x y Ha Hb B IH]; intros E; [reflexivity|]. injection E as E1 E2. subst b. destruct a; try congruence; cbn [weq]; auto. Qed.
Lemma weq_neq x y : weq x y <> 0 -> x = y.
Proof. revert y. induction x as [|a x IH]; intros [|b y]; cbn [weq]; intros E; try congruence; destruct a; try congruence; destruct b; try congruence; f_equal; apply IH; auto. Qed.

Lemma zlen_c {A} (a : A) l : zlen (a :: l) = (zlen l + 1)%Z.
Proof. unfold zlen. cbn [length]. lia. Qed.

Lemma qsum_scale0 {A} (f : A -> Qc) l : qsum (fun x => - (f x)) l = - qsum f l.
Proof. induction l as [|x l IH]; rewrite ?qsum_nil, ?qsum_cons, ?IH; ring. Qed.
Lemma qsum_sc {A} c (f : A -> Qc) l : qsum (fun x => c * f x) l = c * qsum f l.
Proof. apply qsum_mul. Qed.

Lemma Hs_LL_L s x y : Hs s (LL :: x) (LL :: y) = Hs s x y.
Proof. unfold Hs. cbn [rems]. rewrite qsum_map. apply qsum_ext. intros r _. cbn [fst snd]. unfold F. destruct s; reflexivity. Qed.
Lemma Hs_LR_f x y : Hs false (LL :: x) (LR :: y) = Hs true x y.
Proof. unfold Hs. cbn [rems]. rewrite qsum_map. apply qsum_ext. intros r _. reflexivity. Qed.
Lemma Hs_LR_t x y : Hs true (LL :: x) (LR :: y) = 0.
Proof. unfold Hs. cbn [rems]. rewrite qsum_map. apply qsum_zero. intros [[c z] u] _. cbn [fst snd]. unfold F. cbn [ker]. ring. Qed.
Lemma Hs_RL_f x y : Hs false (LR :: x) (LL :: y) = F false x y.
Proof. unfold Hs. cbn [rems]. rewrite qsum_cons, qsum_map. rewrite qsum_zero; [cbn [fst snd]; unfold F; cbn [ker]; ring|]. intros [[c z] u] _. cbn [fst snd]. unfold F. cbn [ker]. ring. Qed.
Lemma Hs_RL_t x y : Hs true (LR :: x) (LL :: y) = F true x y - two * Hs false x y.
Proof.
  unfold Hs. cbn [rems]. rewrite qsum_cons, qsum_map. cbn [fst snd].
  rewrite (qsum_ext _ (fun r => (- two) * (fst (fst r) * F false (snd r) y))).
  - rewrite qsum_mul. unfold F. cbn [ker]. ring.
  - intros [[c z] u] _. unfold F. cbn [ker fst snd]. ring.
Qed.
Lemma Hs_RR_f x y : Hs false (LR :: x) (LR :: y) = F true x y - Hs false x y.
Proof.
  unfold Hs. cbn [rems]. rewrite qsum_cons, qsum_map. cbn [fst snd].
  rewrite (qsum_ext _ (fun r => (- (1)) * (fst (fst r) * F false (snd r) y))).
  - rewrite qsum_mul. unfold F. cbn [ker]. ring.
  - intros [[c z] u] _. unfold F. cbn [ker fst snd]. ring.
Qed.
Lemma Hs_RR_t x y : Hs true (LR :: x) (LR :: y) = - Hs true x y.
Proof.
  unfold Hs. cbn [rems]. rewrite qsum_cons, qsum_map. cbn [fst snd].
  rewrite (qsum_ext _ (fun r => (- (1)) * (fst (fst r) * F true (snd r) y))).
  - rewrite qsum_mul. unfold F. cbn [ker]. ring.
  - intros [[c z] u] _. unfold F. cbn [ker fst snd]. ring.
Qed.

Lemma bwords_len x y : bwords x y -> zlen x = zlen y.
Proof. induction 1; [reflexivity|]. rewrite !zlen_c. lia. Qed.

Definition E0 (x y : word) : Qc := two * Hs false x y - (G false y x - par x * weq x y).
Lemma main_T x y : bwords x y ->
  (E0 x y <> 0 -> (1 <= sz y - sz x <= zlen x)%Z) /\ (Hs true x y <> 0 -> (- zlen x <= sz y - sz x <= -1)%Z).
Proof.
  induction 1 as [|a b x y Ha Hb Hw [IH1 IH2]].
  { split; intros X; exfalso; apply X; reflexivity. }
  destruct (FG x y Hw) as [F1 F2]. pose proof (bwords_len _ _ Hw) as Hl. assert (0 <= zlen x)%Z by (unfold zlen; lia). rewrite zlen_c.
  assert (W : weq x y <> 0 -> sz y = sz x) by (intros W; apply weq_neq in W; congruence).
  letters a b; cbn [sz].
  - (* R R *) split.
    + intros X. assert (Y : E0 x y <> 0).
      { intros Y. apply X. unfold E0 in *. rewrite Hs_RR_f. unfold G in *. cbn [ker par weq]. rewrite F2 in *. clear - Y. 
        assert (Y' : two * Hs false x y = F true x y - par x * weq x y) by (rewrite <- (Qcplus_0_r (F true x y - _)), <- Y; ring).
        transitivity (two * F true x y - two * Hs false x y - (F true x y + par x * weq x y)); [ring|]. rewrite Y'. unfold two. ring. }
      apply IH1 in Y. lia.
    + rewrite Hs_RR_t. intros X. assert (Hs true x y <> 0) as Y by (intros Y; apply X; rewrite Y; reflexivity). apply IH2 in Y. lia.
  - (* R L *) split.
    + intros X. exfalso. apply X. unfold E0. rewrite Hs_RL_f. unfold G in *. cbn [ker weq]. rewrite F1. ring.
    + rewrite Hs_RL_t. intros X.
      destruct (Qc_eq_dec (E0 x y) 0) as [Y|Y]; [|apply IH1 in Y; lia].
      destruct (Qc_eq_dec (weq x y) 0) as [Z|Z]; [|apply W in Z; lia].
      exfalso. apply X. unfold E0 in Y. rewrite Z in Y. rewrite F2 in Y.
      transitivity (- (two * Hs false x y - (F true x y - par x * 0))); [ring|]. rewrite Y. ring.
  - (* L R *) split.
    + intros X. unfold E0 in X. rewrite Hs_LR_f in X. unfold G in X. cbn [ker weq] in X.
      assert (Y : Hs true x y <> 0) by (intros Y; apply X; rewrite Y; ring). apply IH2 in Y. lia.
    + rewrite Hs_LR_t. congruence.
  - (* L L *) split.
    + intros X. assert (Y : E0 x y <> 0) by (intros Y; apply X; unfold E0 in *; rewrite Hs_LL_L; unfold G in *; cbn [ker par weq]; exact Y). apply IH1 in Y. lia.
    + rewrite Hs_LL_L. intros Y. apply IH2 in Y. lia.
Qed.
Lemma sum_T x y : bwords x y -> (sz y <= sz x)%Z -> two * Hs false x y = G false y x - par x * weq x y.
Proof.
  intros B Hsz. destruct (Qc_eq_dec (E0 x y) 0) as [Y|Y]; [|apply (main_T x y B) in Y; lia].
  unfold E0 in Y. rewrite <- (Qcplus_0_r (G false y x - _)), <- Y. ring.
Qed.
Lemma sum_Tq x y : bwords x y -> (sz y + zlen x < sz x)%Z -> Hs true x y = 0.
Proof. intros B Hsz. destruct (Qc_eq_dec (Hs true x y) 0) as [Y|Y]; auto. apply (main_T x y B) in Y. lia. Qed.

(** *** the second sum *)
Fixpoint bw (n : nat) : list word := match n with O => [[]] | S n => map (cons LL) (bw n) ++ map (cons LR) (bw n) end.
(** [G], with the sign of the number of boxes *)
Fixpoint Gm (s : bool) (v x : word) : Qc :=
  match v, x with
  | [], [] => if s then two else 1
  | a :: v', b :: x' =>
      match s, a, b with
      | false, LL, LL => Gm false v' x' | false, LR, LR => Gm false v' x' | false, LL, LR => - Gm true v' x'
      | true, LL, LL => - Gm true v' x' | true, LR, LR => - Gm true v' x' | true, LR, LL => two * Gm false v' x'
      | _, _, _ => 0
      end
  | _, _ => 0
  end.
Definition sg (z : Z) : Qc := if Z.even z then 1 else - (1).
Lemma sg_succ z : sg (z + 1) = - sg z.
Proof. unfold sg. rewrite Z.add_1_r, Z.even_succ, <- Z.negb_even. destruct (Z.even z); cbn [negb]; ring. Qed.
Lemma Gm_G v x : bwords v x -> Gm false v x = sg (sz x - sz v) * G false v x /\ Gm true v x = sg (sz x + zlen x - sz v) * G true v x.
Proof.
  induction 1 as [|a b v x Ha Hb Hw [IH1 IH2]]; [unfold G, sg; cbn; split; ring|]. pose proof (bwords_len _ _ Hw) as Hl. rewrite zlen_c.
  letters a b; cbn [Gm sz]; unfold G in *; cbn [ker]; rewrite ?IH1, ?IH2; split; try ring.
  - f_equal. f_equal. lia.
  - replace (zlen x + 1 + sz x + (zlen x + 1) - (zlen v + 1 + sz v))%Z with ((sz x + zlen x - sz v) + 1)%Z by lia. rewrite sg_succ. ring.
  - replace (sz x + (zlen x + 1) - (zlen v + 1 + sz v))%Z with (sz x - sz v)%Z by lia. ring.
  - replace (zlen x + 1 + sz x - sz v)%Z with ((sz x + zlen x - sz v) + 1)%Z by lia. rewrite sg_succ. ring.
  - replace (sz x + (zlen x + 1) - sz v)%Z with ((sz x + zlen x - sz v) + 1)%Z by lia. rewrite sg_succ. ring.
Qed.

Definition K (n : nat) (s t : bool) (x y : word) : Qc := qsum (fun v => Gm s v x * F t v y) (bw n).
Lemma K_cons n s t x y : K (S n) s t x y = qsum (fun v => Gm s (LL :: v) x * F t (LL :: v) y) (bw n) + qsum (fun v => Gm s (LR :: v) x * F t (LR :: v) y) (bw n).
Proof. unfold K. cbn [bw]. rewrite qsum_app, !qsum_map. reflexivity. Qed.
Lemma qsum_c {A} c (f g : A -> Qc) l : (forall x, f x = c * g x) -> qsum f l = c * qsum g l.
Proof. intros E. rewrite <- qsum_mul. apply qsum_ext. auto. Qed.
Ltac ks := rewrite K_cons; unfold K, F; cbn [Gm ker].
Fixpoint C00 (x y : word) : Qc :=
  match x, y with
  | [], [] => 1
  | LL :: x', LL :: y' => C00 x' y'
  | LR :: x', LR :: y' => - C00 x' y'
  | LL :: x', LR :: y' => weq x' y'
  | LR :: x', LL :: y' => - (two * sg (zlen x') * weq x' y')
  | _, _ => 0
  end.
Lemma main_K x y : bwords x y -> forall n, length x = n ->
  K n false false x y = C00 x y /\ K n false true x y = weq x y /\ K n true false x y = two * sg (zlen x) * weq x y /\ K n true true x y = two * C00 x y.
Proof.
  induction 1 as [|a b x y Ha Hb Hw IH]; intros n Hn; cbn [length] in Hn; subst n.
  { unfold K, F. cbn [bw]. rewrite !qsum_cons, !qsum_nil. cbn. unfold sg, two. cbn. repeat split; ring. }
  destruct (IH _ eq_refl) as (I1 & I2 & I3 & I4). unfold K, F, word in I1, I2, I3, I4. rewrite zlen_c, sg_succ.
  letters a b; cbn [C00 weq]; (split; [|split; [|split]]); ks;
  repeat match goal with
  | |- context [qsum ?f (bw ?n)] =>
     first
     [ rewrite (qsum_zero f (bw n)) by (intros; cbv beta; ring)
     | rewrite (qsum_c 1 f (fun v => Gm false v x * ker (fun _ => 1) false v y) (bw n)) by (intros; cbv beta; ring); rewrite I1
     | rewrite (qsum_c (- (1)) f (fun v => Gm false v x * ker (fun _ => 1) false v y) (bw n)) by (intros; cbv beta; ring); rewrite I1
     | rewrite (qsum_c two f (fun v => Gm false v x * ker (fun _ => 1) false v y) (bw n)) by (intros; cbv beta; ring); rewrite I1
     | rewrite (qsum_c (two * two) f (fun v => Gm false v x * ker (fun _ => 1) false v y) (bw n)) by (intros; cbv beta; ring); rewrite I1
     | rewrite (qsum_c 1 f (fun v => Gm false v x * ker (fun _ => 1) true v y) (bw n)) by (intros; cbv beta; ring); rewrite I2
     | rewrite (qsum_c two f (fun v => Gm false v x * ker (fun _ => 1) true v y) (bw n)) by (intros; cbv beta; ring); rewrite I2
     | rewrite (qsum_c (- (1)) f (fun v => Gm true v x * ker (fun _ => 1) false v y) (bw n)) by (intros; cbv beta; ring); rewrite I3
     | rewrite (qsum_c (- two) f (fun v => Gm true v x * ker (fun _ => 1) false v y) (bw n)) by (intros; cbv beta; ring); rewrite I3
     | rewrite (qsum_c (- (1)) f (fun v => Gm true v x * ker (fun _ => 1) true v y) (bw n)) by (intros; cbv beta; ring); rewrite I4 ]
  end; unfold two; ring.
Qed.
