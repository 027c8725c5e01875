(** [giambelli] and [qgiambelli] of the classes with two rows of IG(m,2n) and
    OG(m,2n+1). *)

From Coq Require Import ZArith List Lia Bool Permutation QArith Qcanon Setoid Morphisms.
From Verif Require Import Py OrderFacts PyFacts ModelPart ModelQcalc ModelPoly ModelStr ModelGr Spec SpecPieri SpecDet SpecRel SpecTwo
  PolyFacts SuppFacts OpTheory WSum Sys Sys2 RingC RingB ApiRing CoefSys CommC CommB GrInv DetFacts GiamDet ConjFacts FactsA PieriCoef Transfer SysApi RingData CompsBound TwoRows TwoRows2 RelBC.
Import ListNotations.
Open Scope Z_scope.

(** ** the sums *)
Definition conv (K w : nat -> Qc) : Prop := forall (F : nat -> poly) y,
  peq (psumf (fun j => pscale (K j) (psumf (fun i => pscale (w i) (F (y - j - i)%nat)) (seq 0 (S (y - j))))) (seq 0 (S y))) (F y).
Definition kap_full (j : nat) : Qc := if (j =? 0)%nat then 1%Qc else (1 + 1)%Qc.
Definition w_short (i : nat) : Qc := match i with O => 1%Qc | S O => (-(1))%Qc | _ => 0%Qc end.
Lemma coef_psumf' {A} (f : A -> poly) l mo : coef (psumf f l) mo = qsumf (fun x => coef (f x) mo) l.
Proof. induction l as [|x l IH]; [reflexivity|]. rewrite psumf_cons, coef_padd, IH. reflexivity. Qed.
Lemma qsumf_map {A B} (g : A -> B) (f : B -> Qc) l : qsumf f (map g l) = qsumf (fun x => f (g x)) l.
Proof. induction l as [|x l IH]; [reflexivity|]. cbn [map]. rewrite !qsumf_cons, IH. reflexivity. Qed.
Lemma qsumf_S0 (f : nat -> Qc) n : qsumf f (seq 0 (S n)) = (f 0%nat + qsumf (fun j => f (S j)) (seq 0 n))%Qc.
Proof. cbn [seq]. rewrite qsumf_cons, <- seq_shift, qsumf_map. reflexivity. Qed.
Lemma qsumf_mul {A} c (f : A -> Qc) l : qsumf (fun x => (c * f x)%Qc) l = (c * qsumf f l)%Qc.
Proof. induction l as [|x l IH]; [rewrite !qsumf_nil; ring|]. rewrite !qsumf_cons, IH. ring. Qed.
Lemma qsumf_add {A} (f g : A -> Qc) l : qsumf (fun x => (f x + g x)%Qc) l = (qsumf f l + qsumf g l)%Qc.
Proof. induction l as [|x l IH]; [rewrite !qsumf_nil; ring|]. rewrite !qsumf_cons, IH. ring. Qed.

Section Conv.
Variable f : nat -> Qc.
Definition Tf (w : nat -> Qc) (y : nat) : Qc := qsumf (fun i => (w i * f (y - i)%nat)%Qc) (seq 0 (S y)).
Lemma Tf_S y : (Tf weight_IG (S y) + Tf weight_IG y = f (S y) - f y)%Qc.
Proof.
  unfold Tf. rewrite (qsumf_S0 _ (S y)), (qsumf_S0 _ y), (qsumf_S0 (fun i => (weight_IG i * f (y - i)%nat)%Qc) y).
  rewrite (qsumf_ext (fun j => (weight_IG (S (S j)) * f (S y - S (S j))%nat)%Qc) (fun j => (-(1) * (weight_IG (S j) * f (y - S j)%nat))%Qc)).
  - rewrite qsumf_mul. rewrite !Nat.sub_0_r. change (S y - 1)%nat with (y - 0)%nat. rewrite Nat.sub_0_r.
    change (weight_IG 0) with 1%Qc. change (weight_IG 1) with (-(1) * (1 + 1))%Qc. ring.
  - intros j _. change (S y - S (S j))%nat with (y - S j)%nat. unfold weight_IG. change (S (S j) =? 0)%nat with false. change (S j =? 0)%nat with false. cbv iota.
    rewrite (sign_S' (S j)). ring.
Qed.
Definition Uf (y : nat) : Qc := qsumf (fun j => Tf weight_IG (y - j)%nat) (seq 0 (S y)).
Lemma Uf_S y : Uf (S y) = (Tf weight_IG (S y) + Uf y)%Qc.
Proof. unfold Uf. rewrite (qsumf_S0 _ (S y)), Nat.sub_0_r. reflexivity. Qed.
Lemma Tf_0 w : w 0%nat = 1%Qc -> Tf w 0 = f 0%nat.
Proof. intros E. unfold Tf. cbn [seq]. rewrite qsumf_cons, qsumf_nil, E. cbn [Nat.sub]. ring. Qed.
Lemma Uf_0 : Uf 0 = f 0%nat.
Proof. unfold Uf. cbn [seq]. rewrite qsumf_cons, qsumf_nil. cbn [Nat.sub]. rewrite Tf_0 by reflexivity. ring. Qed.
Lemma Uf_2 y : (Uf (S y) + Uf y = f (S y))%Qc.
Proof.
  induction y as [|y IH].
  - pose proof (Tf_S 0) as E. rewrite Uf_S, Uf_0. rewrite (Tf_0 weight_IG) in E by reflexivity.
    transitivity (Tf weight_IG 1 + f 0%nat + (f 1%nat - f 0%nat - (Tf weight_IG 1 + f 0%nat)) + f 0%nat)%Qc; [rewrite <- E|]; ring.
  - pose proof (Tf_S (S y)) as E. rewrite (Uf_S (S y)). rewrite (Uf_S y) at 2.
    transitivity ((Tf weight_IG (S (S y)) + Tf weight_IG (S y)) + (Uf (S y) + Uf y))%Qc; [ring|]. rewrite E, IH. ring.
Qed.
Lemma full_val y : qsumf (fun j => (kap_full j * Tf weight_IG (y - j)%nat)%Qc) (seq 0 (S y)) = f y.
Proof.
  destruct y as [|y].
  - cbn [seq]. rewrite qsumf_cons, qsumf_nil. cbn [Nat.sub]. change (kap_full 0) with 1%Qc. rewrite Tf_0 by reflexivity. ring.
  - rewrite (qsumf_S0 _ (S y)). rewrite (qsumf_ext _ (fun j => ((1 + 1) * Tf weight_IG (y - j)%nat)%Qc)) by (intros; reflexivity).
    rewrite qsumf_mul. fold (Uf y). rewrite <- Uf_2, Uf_S, Nat.sub_0_r. change (kap_full 0) with 1%Qc. ring.
Qed.
Lemma Ts_S y : Tf w_short (S y) = (f (S y) - f y)%Qc.
Proof.
  unfold Tf. rewrite (qsumf_S0 _ (S y)), (qsumf_S0 _ y). rewrite qsumf_zero by (intros j _; change (w_short (S (S j))) with 0%Qc; ring).
  rewrite !Nat.sub_0_r. change (S y - 1)%nat with (y - 0)%nat. rewrite Nat.sub_0_r. change (w_short 0) with 1%Qc. change (w_short 1) with (-(1))%Qc. ring.
Qed.
Lemma short_val y : qsumf (fun j => (1 * Tf w_short (y - j)%nat)%Qc) (seq 0 (S y)) = f y.
Proof.
  induction y as [|y IH].
  - cbn [seq]. rewrite qsumf_cons, qsumf_nil. cbn [Nat.sub]. rewrite Tf_0 by reflexivity. ring.
  - rewrite (qsumf_S0 _ (S y)). rewrite (qsumf_ext _ (fun j => (1 * Tf w_short (y - j)%nat)%Qc)) by (intros; reflexivity). rewrite IH, Nat.sub_0_r, Ts_S. ring.
Qed.
End Conv.
Lemma conv_coef K w : (forall f y, qsumf (fun j => (K j * Tf f w (y - j)%nat)%Qc) (seq 0 (S y)) = f y) -> conv K w.
Proof.
  intros H F y mo. rewrite coef_psumf'. rewrite <- (H (fun y => coef (F y) mo) y). apply qsumf_ext. intros j _.
  rewrite coef_pscale, coef_psumf'. f_equal. unfold Tf. apply qsumf_ext. intros i _. rewrite coef_pscale. reflexivity.
Qed.
Lemma conv_full : conv kap_full weight_IG.
Proof. apply conv_coef, full_val. Qed.
Lemma conv_short : conv (fun _ => 1%Qc) w_short.
Proof. apply conv_coef, short_val. Qed.

Section Alg.
Variable c : Z.
Hypothesis Hc : 0 <= c.
Variable e : Z -> Qc.
Hypothesis He : forall z, e z <> 0%Qc.
Variables kap w : nat -> Qc.
Hypothesis Hconv : conv kap w.
Definition wt (a b : Z) (i : nat) : Qc := (w i * (e (a + Z.of_nat i) * e (b - Z.of_nat i)) / (e a * e b))%Qc.
Definition kt (a b : Z) (i : nat) : Qc := (kap i * (e (a + Z.of_nat i) * e (b - Z.of_nat i)) / (e a * e b))%Qc.
Lemma two_conv a b : 0 <= b ->
  peq (psumf (fun j => pscale (kt a b j) (two_row c (a + Z.of_nat j) (b - Z.of_nat j) (wt (a + Z.of_nat j) (b - Z.of_nat j)))) (seq 0 (S (Z.to_nat b))))
      (pmul (hclass c a) (hclass c b)).
Proof.
  intros Hb. set (F := fun y : nat => pscale (e (a + b - Z.of_nat y) * e (Z.of_nat y) / (e a * e b))%Qc (pmul (hclass c (a + b - Z.of_nat y)) (hclass c (Z.of_nat y)))).
  pose proof (Hconv F (Z.to_nat b)) as HF. unfold F at 2 in HF. rewrite Z2Nat.id in HF by auto. replace (a + b - b) with a in HF by lia.
  assert (E1 : (e a * e b / (e a * e b) = 1)%Qc) by (field; split; apply He).
  rewrite E1, pscale_pmul in HF. change (pconst 1%Qc) with pone in HF. transitivity (pmul pone (pmul (hclass c a) (hclass c b))); [|ring]. rewrite <- HF. clear HF E1.
  apply psumf_ext. intros j Hj. apply in_seq in Hj. intros mo. rewrite !coef_pscale. unfold two_row. rewrite !coef_psumf', <- !qsumf_mul.
  replace (Z.to_nat (b - Z.of_nat j)) with (Z.to_nat b - j)%nat by lia. apply qsumf_ext. intros i Hi. apply in_seq in Hi. unfold F. rewrite !coef_pscale.
  replace (a + b - Z.of_nat (Z.to_nat b - j - i)) with (a + Z.of_nat j + Z.of_nat i) by lia. replace (Z.of_nat (Z.to_nat b - j - i)) with (b - Z.of_nat j - Z.of_nat i) by lia.
  unfold kt, wt. field. repeat split; apply He.
Qed.
Lemma two_row_big a b v : c < a -> peq (two_row c a b v) pzero.
Proof.
  intros Ha. apply psumf_zero. intros i _. rewrite (hclass_big c Hc (a + Z.of_nat i)) by lia. rewrite pscale_pmul. ring.
Qed.
(** the sum over the terms with a row of at most [c] boxes *)
Lemma two_conv' a b N : 0 <= b -> (N <= Z.to_nat b)%nat -> (N = Z.to_nat b \/ c <= a + Z.of_nat N) ->
  peq (psumf (fun j => pscale (kt a b j) (two_row c (a + Z.of_nat j) (b - Z.of_nat j) (wt (a + Z.of_nat j) (b - Z.of_nat j)))) (seq 0 (S N)))
      (pmul (hclass c a) (hclass c b)).
Proof.
  intros Hb HN HC. rewrite <- two_conv by auto. replace (S (Z.to_nat b)) with (S N + (Z.to_nat b - N))%nat by lia. rewrite seq_app, psumf_app.
  rewrite (psumf_zero _ (seq (0 + S N) _)); [ring|]. intros j Hj. apply in_seq in Hj. rewrite two_row_big by lia. rewrite pscale_pmul. ring.
Qed.
End Alg.

(** ** a family of polynomials for some of the classes *)
Section U.
Context {t : gtype} {pi : Z -> list Z -> res poly} {V : list Z -> Prop} {I : Z -> Prop}
  {k : Z} {mu : list Z -> nat} {fuel : nat}.
Hypothesis H : pieri_sys t pi V I k mu fuel.
Variable U : list Z -> Prop.
Variable D : list Z -> poly.
Hypothesis D_nil : peq (D []) pone.
Hypothesis D_rec : forall l p l0, V l -> U l -> l <> [] -> gsel k l = Ok (p, l0) -> I p -> V l0 ->
  U l0 /\ supp (linm U (eq VQ)) (P pi p l0) /\ peq (psubst (dv D) (P pi p l0)) (pmul (pvar (sv p)) (D l0)).
Lemma giam_on_f f : forall l, V l -> U l -> (mu l < f)%nat -> exists E, giambelli_rec_inner f pi k l = Ok E /\ peq E (D l).
Proof.
  induction f as [|f IH]; intros l Hl HU Hf; [lia|].
  destruct (list_eq_dec Z.eq_dec l []) as [->|Hne].
  { exists pone. split; auto. symmetry. exact D_nil. }
  rewrite gri_unfold; auto.
  destruct (ps_rec _ _ _ _ _ _ _ H l Hl Hne) as (p & l0 & Es & Hp & [Hl0 Hmu] & Hst).
  destruct (D_rec l p l0 Hl HU Hne Es Hp Hl0) as (HU0 & HUs & HD). rewrite Es. simpl.
  rewrite (ps_ok _ _ _ _ _ _ _ H); auto. simpl. unfold symbol at 1. rewrite (ps_nonneg _ _ _ _ _ _ _ H); auto. simpl.
  destruct (IH l0) as (a & -> & Ha); auto; [lia|]. simpl.
  change (pvar (VS (SP l))) with (pS l).
  assert (HUs' : supp (linm U (eq VQ)) (psub (P pi p l0) (pS l))).
  { apply supp_psub; auto. intros mo Hmo. exists l, []. split; auto. split; [|constructor].
    unfold pS, pvar, pmono in Hmo. cbn [coef] in Hmo. change (VS (SP l)) with (vS l) in Hmo. destruct (mono_eqb [vS l] mo) eqn:E; [|exfalso; apply Hmo; ring].
    apply mono_eqb_perm in E. apply Permutation_sym. exact E. }
  set (stuff := psub (P pi p l0) (pS l)) in *.
  destruct (apply_lc_ok (on_part (giambelli_rec_inner f pi k)) (dv D) stuff) as (b & -> & Hb).
  { intros m c v Hin Hv. apply supp_rawnorm in Hst. specialize (Hst _ _ Hin). apply supp_rawnorm in HUs'. specialize (HUs' _ _ Hin).
    destruct Hst as (x & qm & [Hx1 Hx2] & HP & HQ). destruct HUs' as (x' & qm' & Hx' & HP' & HQ').
    assert (Ex : x' = x).
    { assert (Hi : In (vS x) (vS x' :: qm')) by (apply (Permutation_in _ HP'); apply (Permutation_in _ (Permutation_sym HP)); left; auto).
      destruct Hi as [E|Hi]; [injection E; auto|]. rewrite Forall_forall in HQ'. apply HQ' in Hi. discriminate. }
    subst x'.
    apply (Permutation_in _ HP) in Hv. destruct Hv as [<-|Hv].
    - destruct (IH x) as (E & E1 & E2); auto; [lia|]. exists E. split; auto.
    - rewrite Forall_forall in HQ. apply HQ in Hv. subst v.
      exists (pvar VQ). split; reflexivity. }
  simpl. unfold symbol. rewrite (ps_specnonneg _ _ _ _ _ _ _ H); auto. simpl.
  eexists. split; [reflexivity|]. change (pvar (VS (SP (num2spec p)))) with (pvar (sv p)).
  rewrite Ha, Hb. unfold stuff. rewrite psubst_psub, HD. unfold pS. rewrite psubst_pvar. simpl. ring.
Qed.
Lemma giam_on l : V l -> U l -> exists E, giambelli_rec_inner fuel pi k l = Ok E /\ peq E (D l).
Proof. intros Hl HU. apply giam_on_f; auto. apply (ps_fuel _ _ _ _ _ _ _ H); auto. Qed.
End U.

(** ** products of two special classes *)
Section Shapes.
Variables c a b : Z.
Hypothesis Hb : 1 <= b <= a.
Hypothesis Hac : a <= c.
Definition Nt : nat := Z.to_nat (Z.min b (c - a)).
Definition inb (mu : list Z) : bool := eqbl mu (row2 (part mu 0) (a + b - part mu 0)) && (a <=? part mu 0) && (part mu 0 <=? c) && (part mu 0 <=? a + b).
Lemma inb_iff mu : inb mu = true <-> mu = row2 (part mu 0) (a + b - part mu 0) /\ a <= part mu 0 <= c /\ part mu 0 <= a + b.
Proof. clear Hb Hac. unfold inb. rewrite !andb_true_iff, eqbl_iff, !Z.leb_le. tauto. Qed.
Lemma inb_sum (K : nat -> Qc) mu :
  qsumf (fun j => (K j * (if eqbl mu (row2 (a + Z.of_nat j) (b - Z.of_nat j)) then 1 else 0))%Qc) (seq 0 (S Nt)) =
  if inb mu then K (Z.to_nat (part mu 0 - a)) else 0%Qc.
Proof.
  assert (G : forall N, qsumf (fun j => (K j * (if eqbl mu (row2 (a + Z.of_nat j) (b - Z.of_nat j)) then 1 else 0))%Qc) (seq 0 (S N)) =
     if eqbl mu (row2 (part mu 0) (a + b - part mu 0)) && (a <=? part mu 0) && (part mu 0 - a <=? Z.of_nat N) then K (Z.to_nat (part mu 0 - a)) else 0%Qc).
  { assert (EQ : forall j : nat, eqbl mu (row2 (a + Z.of_nat j) (b - Z.of_nat j)) = eqbl mu (row2 (part mu 0) (a + b - part mu 0)) && (part mu 0 - a =? Z.of_nat j)).
    { intros j. apply eq_true_iff_eq. rewrite andb_true_iff, !eqbl_iff, Z.eqb_eq. split.
      - intros E. assert (E0 : part mu 0 = a + Z.of_nat j) by (rewrite E; apply part_row2_0). rewrite E0. split; [|lia].
        replace (a + b - (a + Z.of_nat j)) with (b - Z.of_nat j) by lia. exact E.
      - intros [E E0]. replace (a + Z.of_nat j) with (part mu 0) by lia. replace (b - Z.of_nat j) with (a + b - part mu 0) by lia. exact E. }
    intros N. induction N as [|N IH].
    - cbn [seq]. rewrite qsumf_cons, qsumf_nil, EQ. destruct (eqbl mu _); cbn [andb]; [|ring].
      destruct (Z.eqb_spec (part mu 0 - a) (Z.of_nat 0)), (Z.leb_spec a (part mu 0)), (Z.leb_spec (part mu 0 - a) (Z.of_nat 0)); cbn [andb]; try lia; try ring.
      replace (Z.to_nat (part mu 0 - a)) with 0%nat by lia. ring.
    - rewrite qsumf_S, IH, EQ. destruct (eqbl mu _); cbn [andb]; [|ring].
      destruct (Z.eqb_spec (part mu 0 - a) (Z.of_nat (S N))), (Z.leb_spec a (part mu 0)), (Z.leb_spec (part mu 0 - a) (Z.of_nat N)), (Z.leb_spec (part mu 0 - a) (Z.of_nat (S N))); cbn [andb]; try lia; try ring.
      replace (Z.to_nat (part mu 0 - a)) with (S N) by lia. ring. }
  rewrite G. unfold inb. destruct (eqbl mu _); cbn [andb]; auto. unfold Nt.
  destruct (Z.leb_spec a (part mu 0)), (Z.leb_spec (part mu 0 - a) (Z.of_nat (Z.to_nat (Z.min b (c - a))))), (Z.leb_spec (part mu 0) c), (Z.leb_spec (part mu 0) (a + b)); cbn [andb]; auto; lia.
Qed.
Definition psum2 (K : nat -> Qc) : poly := psumf (fun j => pscale (K j) (pS (row2 (a + Z.of_nat j) (b - Z.of_nat j)))) (seq 0 (S Nt)).
Lemma qcoefs_psum2 K : qcoefs (psum2 K) (fun d mu => if (d =? 0)%nat && inb mu then K (Z.to_nat (part mu 0 - a)) else 0%Qc).
Proof.
  eapply qcoefs_ext; [|apply (qcoefs_psumf K _ (fun j d mu => if (d =? 0)%nat && eqbl mu (row2 (a + Z.of_nat j) (b - Z.of_nat j)) then 1%Qc else 0%Qc))].
  - intros d mu. cbv beta. destruct (d =? 0)%nat; cbn [andb]; [apply inb_sum || (symmetry; apply inb_sum)|]. first [apply qsumf_zero|symmetry; apply qsumf_zero]. intros; ring.
  - intros j _. apply qcoefs_single. unfold qS. cbn [repeat]. rewrite pscale_pmul. change (pmono [vS (row2 (a + Z.of_nat j) (b - Z.of_nat j))]) with (pS (row2 (a + Z.of_nat j) (b - Z.of_nat j))).
    change (pconst 1%Qc) with pone. ring.
Qed.
Variables k rows : Z.
Hypothesis Hk : 0 <= k.
Hypothesis Hrows : 2 <= rows.
Hypothesis Hst : k < a -> b < a.
Lemma row2_kstrict x : a <= x <= c -> x <= a + b -> kstrict_in k rows c (row2 x (a + b - x)).
Proof.
  intros H1 H2. split; [split; [apply row2_partition; lia|]|].
  - rewrite length_row2, part_row2_0. destruct (Z.eqb_spec (a + b - x) 0); lia.
  - intros [|[|j]] Hj; rewrite ?part_row2_0, ?part_row2_1, ?part_row2_2 in *; lia.
Qed.
Lemma inb_shape mu : kstrict_in k rows c mu -> size mu = a + b -> pieri_arrow k 0 [a] mu -> inb mu = true.
Proof.
  intros ((Hp & Hl & Hc) & Hs) Hsz Har. destruct (arrow_row_inv' k a ltac:(lia) mu Hp ltac:(lia) Har) as (E & A1 & A2). apply inb_iff.
  assert (Esz : part mu 0 + part mu 1 = a + b) by (rewrite <- (size_row2 (part mu 0) (part mu 1)), <- E, Hsz; reflexivity).
  replace (a + b - part mu 0) with (part mu 1) by lia. split; [exact E|lia].
Qed.
Lemma shape_inb mu : inb mu = true -> kstrict_in k rows c mu /\ size mu = a + b /\ pieri_arrow k 0 [a] mu.
Proof.
  intros G. apply inb_iff in G. destruct G as (E & A1 & A2). rewrite E. set (x := part mu 0) in *. clearbody x. clear E mu.
  split; [apply row2_kstrict; lia|]. split; [rewrite size_row2; lia|]. apply arrow_two'; lia.
Qed.
End Shapes.

Definition is_full (k a b : Z) : bool := 2 * k + 1 <? a + b.
Definition kap (k a b : Z) (j : nat) : Qc := if is_full k a b then kap_full j else 1%Qc.
Lemma conv_two k a b : conv (kap k a b) (weight_two k a b).
Proof. unfold kap, weight_two, is_full. destruct (2 * k + 1 <? a + b); [apply conv_full|apply conv_short]. Qed.

Section TermC.
Variables k n a b : Z.
Hypothesis Hk : 0 <= k.
Hypothesis Hn : 2 <= n - k.
Hypothesis Hb : 1 <= b <= a.
Hypothesis Hac : a <= n + k.
Hypothesis Hst : k < a -> b < a.
Lemma size_one z : size [z] = z.
Proof. unfold size. cbn [fold_right]. lia. Qed.
Lemma termC2 mu v : coef_IG k n b 0 [a] mu v -> v = if inb (n + k) a b mu then kap k a b (Z.to_nat (part mu 0 - a)) else 0%Qc.
Proof.
  intros [((H1 & H2 & H3) & N & HN & _ & ->)|(HT & ->)].
  - rewrite size_one in H2. rewrite (inb_shape (n + k) a b Hb k (n - k)) by auto.
    pose proof (inb_shape (n + k) a b Hb k (n - k) mu H1 H2 H3) as G. apply inb_iff in G. destruct G as (E & A1 & A2). set (x := part mu 0) in *. clearbody x. subst mu.
    unfold kap, is_full. destruct (Z.ltb_spec (2 * k + 1) (a + b)) as [L|L].
    + pose proof (comp_two_C k a x (a + b - x) Hk ltac:(lia) ltac:(lia) ltac:(lia) ltac:(lia) ltac:(lia)) as HC. rewrite (component_count_unique _ _ _ _ HN HC).
      unfold kap_full. destruct (Z.ltb_spec a x), (Nat.eqb_spec (Z.to_nat (x - a)) 0); try lia; apply Qc_is_canon; reflexivity.
    + pose proof (comp_short_C k a Hk ltac:(lia) x (a + b - x) ltac:(lia) ltac:(lia) ltac:(lia)) as HC. rewrite (component_count_unique _ _ _ _ HN HC). apply Qc_is_canon; reflexivity.
  - destruct (inb (n + k) a b mu) eqn:G; auto. exfalso. apply HT. destruct (shape_inb (n + k) a b Hb k (n - k) Hk ltac:(lia) Hst mu G) as (A1 & A2 & A3).
    split; auto. rewrite size_one. auto.
Qed.
Lemma termC2q mu v : coef_IG k (n + 1) b 1 [a] (n + k + 1 :: mu) v -> v = if (n + k + 1 <=? a + b) && eqbl mu (row (a + b - (n + k + 1))) then 1%Qc else 0%Qc.
Proof.
  intros HC.
  assert (HG : (n + k + 1 <=? a + b) && eqbl mu (row (a + b - (n + k + 1))) = inb (n + 1 + k) a b (n + k + 1 :: mu)).
  { apply eq_true_iff_eq. rewrite inb_iff, andb_true_iff, eqbl_iff, Z.leb_le. change (part (n + k + 1 :: mu) 0) with (n + k + 1).
    unfold row2, row. split.
    - intros [H1 ->]. destruct (a + b - (n + k + 1) =? 0); split; auto; lia.
    - intros (H1 & H2 & H3). split; auto. destruct (a + b - (n + k + 1) =? 0); congruence. }
  rewrite HG. clear HG.
  destruct HC as [((H1 & H2 & H3) & N & HN & _ & ->)|(HT & ->)].
  - rewrite size_one in H2. rewrite (inb_shape (n + 1 + k) a b Hb k (n + 1 - k)) by auto.
    pose proof (inb_shape (n + 1 + k) a b Hb k (n + 1 - k) _ H1 H2 H3) as G. apply inb_iff in G. change (part (n + k + 1 :: mu) 0) with (n + k + 1) in G. destruct G as (E & A1 & A2). rewrite E in HN.
    pose proof (comp_two_C k a (n + k + 1) (a + b - (n + k + 1)) Hk ltac:(lia) ltac:(lia) ltac:(lia) ltac:(lia) ltac:(lia)) as HC.
    rewrite (component_count_unique _ _ _ _ HN HC). destruct (Z.ltb_spec a (n + k + 1)); [|lia]. apply Qc_is_canon. reflexivity.
  - destruct (inb (n + 1 + k) a b (n + k + 1 :: mu)) eqn:G; auto. exfalso. apply HT.
    destruct (shape_inb (n + 1 + k) a b Hb k (n + 1 - k) Hk ltac:(lia) Hst _ G) as (A1 & A2 & A3). split; auto. rewrite size_one. auto.
Qed.
Lemma termB2 mu v : coef_OG k n b [a] mu v ->
  v = if inb (n + k) a b mu then kt (twice k) (kap k a b) a b (Z.to_nat (part mu 0 - a)) else 0%Qc.
Proof.
  intros [((H1 & H2 & H3) & N & HN & HsN & ->)|(HT & ->)].
  - rewrite size_one in H2. rewrite (inb_shape (n + k) a b Hb k (n - k)) by auto.
    pose proof (inb_shape (n + k) a b Hb k (n - k) mu H1 H2 H3) as G. apply inb_iff in G. destruct G as (E & A1 & A2). set (x := part mu 0) in *. clearbody x. subst mu.
    unfold kt, kap, is_full, twice. rewrite Z2Nat.id by lia. replace (a + (x - a)) with x by lia. replace (b - (x - a)) with (a + b - x) by lia.
    destruct (Z.ltb_spec (2 * k + 1) (a + b)) as [L|L].
    + pose proof (comp_two_B k a x (a + b - x) Hk ltac:(lia) ltac:(lia) ltac:(lia) ltac:(lia) ltac:(lia)) as HC. pose proof (component_count_unique _ _ _ _ HN HC) as EN. subst N.
      unfold kap_full. destruct (Z.ltb_spec a x), (Nat.eqb_spec (Z.to_nat (x - a)) 0), (Z.ltb_spec k x), (Z.ltb_spec k a), (Z.ltb_spec k b), (Z.ltb_spec k (a + b - x)), (Z.leb_spec b k); try lia; apply Qc_is_canon; reflexivity.
    + pose proof (comp_short_B k a Hk ltac:(lia) x (a + b - x) ltac:(lia) ltac:(lia) ltac:(lia)) as HC. pose proof (component_count_unique _ _ _ _ HN HC) as EN. subst N.
      destruct (Z.leb_spec a k), (Z.ltb_spec k x), (Z.ltb_spec k a), (Z.ltb_spec k b), (Z.ltb_spec k (a + b - x)), (Z.leb_spec b k); cbn [andb]; try lia; apply Qc_is_canon; reflexivity.
  - destruct (inb (n + k) a b mu) eqn:G; auto. exfalso. apply HT. destruct (shape_inb (n + k) a b Hb k (n - k) Hk ltac:(lia) Hst mu G) as (A1 & A2 & A3).
    split; auto. rewrite size_one. auto.
Qed.
End TermC.

Lemma two_row_ext c a b w w' : (forall i, (i <= Z.to_nat b)%nat -> w i = w' i) -> peq (two_row c a b w) (two_row c a b w').
Proof. intros E. apply psumf_ext. intros i Hi. apply in_seq in Hi. rewrite E by lia. reflexivity. Qed.
Lemma two_row_0 c x w : w 0%nat = 1%Qc -> peq (two_row c x 0 w) (hclass c x).
Proof.
  intros E. unfold two_row. change (Z.to_nat 0) with 0%nat. cbn [seq]. rewrite psumf_cons, E. unfold psumf. cbn [fold_right]. change (0 - Z.of_nat 0) with 0.
  replace (x + Z.of_nat 0) with x by lia. change (hclass c 0) with pone. rewrite pscale_pmul. change (pconst 1%Qc) with pone. ring.
Qed.
Lemma sum_sign N : ((1 + 1) * qsumf (fun j => sign (N - j)) (seq 0 N) = sign N - 1)%Qc.
Proof.
  induction N as [|N IH]; [cbn [seq]; rewrite qsumf_nil; unfold sign; cbn [Nat.even]; ring|]. rewrite qsumf_S0.
  rewrite (qsumf_ext (fun j => sign (S N - S j)) (fun j => sign (N - j))) by (intros; reflexivity). rewrite Nat.sub_0_r.
  transitivity ((1 + 1) * sign (S N) + (1 + 1) * qsumf (fun j => sign (N - j)) (seq 0 N))%Qc; [ring|]. rewrite IH, sign_S'. ring.
Qed.
Lemma sum_corr N : qsumf (fun j => (kap_full j * sign (S N - j))%Qc) (seq 0 (S N)) = (-(1))%Qc.
Proof.
  rewrite qsumf_S0. rewrite (qsumf_ext _ (fun j => ((1 + 1) * sign (N - j))%Qc)) by (intros; reflexivity). rewrite qsumf_mul, sum_sign, Nat.sub_0_r, sign_S'.
  change (kap_full 0) with 1%Qc. ring.
Qed.
Lemma psubst_psumf {A} s (f : A -> poly) l : peq (psubst s (psumf f l)) (psumf (fun x => psubst s (f x)) l).
Proof. induction l as [|x l IH]; [reflexivity|]. rewrite !psumf_cons, psubst_padd, IH. reflexivity. Qed.
Definition short2 (l : list Z) : Prop := (length l <= 2)%nat.
Lemma short2_row2 x y : short2 (row2 x y).
Proof. unfold short2, row2. destruct (y =? 0); cbn; lia. Qed.
Lemma supp_lin_pS (U : list Z -> Prop) l : U l -> supp (linm U (eq VQ)) (pS l).
Proof.
  intros HU mo Hmo. exists l, []. split; auto. split; [|constructor].
  unfold pS, pvar, pmono in Hmo. cbn [coef] in Hmo. destruct (mono_eqb [vS l] mo) eqn:E; [|exfalso; apply Hmo; ring].
  apply mono_eqb_perm in E. apply Permutation_sym. exact E.
Qed.
Lemma supp_psumf {A} Q (f : A -> poly) l : (forall x, In x l -> supp Q (f x)) -> supp Q (psumf f l).
Proof.
  induction l as [|x l IH]; intros Hf; [intros mo Hmo; exfalso; apply Hmo; reflexivity|]. rewrite psumf_cons. apply supp_padd; [apply Hf; left; auto|].
  apply IH. intros; apply Hf; right; auto.
Qed.
Lemma supp_psum2 c a b K : supp (linm short2 (eq VQ)) (psum2 c a b K).
Proof. apply supp_psumf. intros j _. apply supp_pscale, supp_lin_pS, short2_row2. Qed.
Lemma hclass_sv' c i : 1 <= i <= c -> hclass c i = pvar (sv i).
Proof.
  intros Hi. unfold hclass, sv, num2spec. destruct (Z.eqb_spec i 0); [lia|]. destruct (Z.ltb_spec 0 i); [|lia]. destruct (Z.leb_spec i c); [|lia]. reflexivity.
Qed.

(** ** the classes with at most two rows *)
Section Main.
Context {t : gtype} {pi : Z -> list Z -> res poly} {I : Z -> Prop} {k : Z} {mu : list Z -> nat} {fuel : nat}.
Variables c rows : Z.
Notation V := (kstrict_in k rows c).
Hypothesis SYS : pieri_sys t pi V I k mu fuel.
Hypothesis Hk : 0 <= k.
Hypothesis Hrows : 2 <= rows.
Hypothesis HI : forall i, I i <-> 1 <= i <= c.
Hypothesis Hspec : forall i, I i -> peq (pS [i]) (P pi i []).
Variable qq : bool.
Variable e : Z -> Qc.
Hypothesis He : forall z, e z <> 0%Qc.
Definition qterm (a b : Z) : poly := if qq && (c + 1 <=? a + b) then pmul (pvar VQ) (pS (row (a + b - (c + 1)))) else pzero.
Hypothesis HP : forall a b, 1 <= b <= a -> a <= c -> (k < a -> b < a) -> peq (P pi b [a]) (padd (psum2 c a b (kt e (kap k a b) a b)) (qterm a b)).
Hypothesis Hqe : qq = true -> 2 * k + 1 <= c /\ forall z, e z = 1%Qc.
Definition corr (a b : Z) : poly :=
  if qq && (c + 1 <=? a + b) then pscale (sign (Z.to_nat (c + 1 - a))) (pmul (pvar VQ) (hclass c (a + b - (c + 1)))) else pzero.
Definition T2 (a b : Z) : poly := padd (two_row c a b (wt e (weight_two k a b) a b)) (corr a b).
Definition D2 (l : list Z) : poly := match l with [] => pone | [x] => hclass c x | [x; y] => T2 x y | _ => pzero end.
Lemma psubst_pS l : peq (psubst (dv D2) (pS l)) (D2 l).
Proof. unfold pS. rewrite psubst_pvar. reflexivity. Qed.
Lemma D2_row2 x y : x <= c -> peq (D2 (row2 x y)) (T2 x y).
Proof.
  intros Hx. unfold row2. destruct (Z.eqb_spec y 0) as [->|N]; [|reflexivity]. cbn [D2]. unfold T2, corr. rewrite two_row_0.
  - destruct (Z.leb_spec (c + 1) (x + 0)); [lia|]. rewrite andb_false_r. ring.
  - unfold wt. replace (x + Z.of_nat 0) with x by lia. change (0 - Z.of_nat 0) with 0.
    replace (weight_two k x 0 0) with 1%Qc by (unfold weight_two; destruct (_ <? _); reflexivity). field. split; apply He.
Qed.
Lemma swap_P a b : I a -> I b -> peq (P pi a [b]) (P pi b [a]).
Proof.
  intros Ha Hb. pose proof (ps_comm _ _ _ _ _ _ _ SYS b a [] Hb Ha (ps_nil _ _ _ _ _ _ _ SYS)) as E.
  rewrite <- (Hspec b Hb), <- (Hspec a Ha), !ext_pS in E. exact E.
Qed.
Lemma corr_sum a b : 1 <= b <= a -> a <= c ->
  peq (padd (psumf (fun j => pscale (kt e (kap k a b) a b j) (corr (a + Z.of_nat j) (b - Z.of_nat j))) (seq 0 (S (Nt c a b)))) (psubst (dv D2) (qterm a b))) pzero.
Proof.
  intros Hb Ha. unfold qterm. destruct (qq && (c + 1 <=? a + b)) eqn:B.
  - apply andb_true_iff in B. destruct B as [Eq B]. destruct (Hqe Eq) as [Hc He1]. apply Z.leb_le in B. rewrite psubst_pmul. unfold pS at 1. rewrite !psubst_pvar.
    change (dv D2 VQ) with (pvar VQ). change (dv D2 (VS (SP (row (a + b - (c + 1)))))) with (D2 (row (a + b - (c + 1)))).
    assert (ED : peq (D2 (row (a + b - (c + 1)))) (hclass c (a + b - (c + 1)))).
    { unfold row. destruct (Z.eqb_spec (a + b - (c + 1)) 0) as [->|]; reflexivity. }
    rewrite ED. intros mo. rewrite coef_padd, coef_psumf'. set (X := pmul (pvar VQ) (hclass c (a + b - (c + 1)))).
    rewrite (qsumf_ext _ (fun j => (coef X mo * (kap_full j * sign (S (Nt c a b) - j)))%Qc)).
    + rewrite qsumf_mul, sum_corr, coef_nil. ring.
    + intros j Hj. apply in_seq in Hj. rewrite coef_pscale. unfold corr. replace (a + Z.of_nat j + (b - Z.of_nat j)) with (a + b) by lia. rewrite Eq. cbn [andb].
      destruct (Z.leb_spec (c + 1) (a + b)); [|lia]. rewrite coef_pscale. fold X. unfold kt, kap, is_full. destruct (Z.ltb_spec (2 * k + 1) (a + b)); [|lia].
      rewrite !He1. replace (Z.to_nat (c + 1 - (a + Z.of_nat j))) with (S (Nt c a b) - j)%nat by (unfold Nt; lia). field. intros E; discriminate E.
  - rewrite psumf_zero; [reflexivity|]. intros j _. unfold corr. replace (a + Z.of_nat j + (b - Z.of_nat j)) with (a + b) by lia. rewrite B. reflexivity.
Qed.
Lemma D2_pieri a b : 1 <= b <= a -> a <= c -> (k < a -> b < a) ->
  peq (psubst (dv D2) (P pi b [a])) (pmul (hclass c a) (hclass c b)).
Proof.
  intros Hb Ha Hs. rewrite HP by auto. rewrite psubst_padd. unfold psum2. rewrite psubst_psumf.
  rewrite <- (two_conv' c ltac:(lia) e He (kap k a b) (weight_two k a b) (conv_two k a b) a b (Nt c a b)) by (unfold Nt; lia).
  rewrite (psumf_ext _ (fun j => padd (pscale (kt e (kap k a b) a b j) (two_row c (a + Z.of_nat j) (b - Z.of_nat j) (wt e (weight_two k a b) (a + Z.of_nat j) (b - Z.of_nat j))))
      (pscale (kt e (kap k a b) a b j) (corr (a + Z.of_nat j) (b - Z.of_nat j))))).
  - rewrite psumf_add. pose proof (corr_sum a b Hb Ha) as E.
    set (X := psumf (fun j => pscale (kt e (kap k a b) a b j) (corr (a + Z.of_nat j) (b - Z.of_nat j))) (seq 0 (S (Nt c a b)))) in *.
    match goal with |- peq (padd (padd ?Y X) ?Z) _ => transitivity (padd Y (padd X Z)); [ring|] end. rewrite E. ring.
  - intros j Hj. apply in_seq in Hj. rewrite psubst_pscale, psubst_pS.
    rewrite D2_row2 by (unfold Nt in Hj; lia). unfold T2. rewrite !pscale_pmul. unfold weight_two at 1. replace (a + Z.of_nat j + (b - Z.of_nat j)) with (a + b) by lia. fold (weight_two k a b). ring.
Qed.
Lemma giam_two a b : V [a; b] -> exists E, giambelli_rec_inner fuel pi k [a; b] = Ok E /\ peq E (T2 a b).
Proof.
  intros HV. apply (giam_on SYS short2 D2); [reflexivity| |auto|unfold short2; cbn; lia]. clear a b HV.
  intros l p l0 Hl HU Hne Hg Hp Hl0. destruct l as [|a [|b [|z l]]]; [congruence| | |unfold short2 in HU; cbn in HU; lia].
  - rewrite gsel_part in Hg by apply Hl. injection Hg as <- <-. split; [unfold short2; cbn; lia|]. split; [eapply supp_peq; [exact (Hspec a Hp)|]; apply supp_lin_pS; unfold short2; cbn; lia|].
    rewrite <- (Hspec a Hp), psubst_pS. cbn [D2]. apply HI in Hp. rewrite hclass_sv' by auto. ring.
  - rewrite gsel_part in Hg by apply Hl. injection Hg as <- <-. split; [unfold short2; cbn; lia|]. destruct Hl as (((H1 & H2) & H3 & H4) & H5).
    pose proof (H1 0%nat ltac:(cbn; lia)) as A0. pose proof (H1 1%nat ltac:(cbn; lia)) as A1. pose proof (H2 0%nat) as A2. specialize (H5 0%nat).
    change (part [a; b] 0) with a in *. change (part [a; b] 1) with b in *.
    assert (Ib : I b) by (apply HI; lia). pose proof (swap_P a b Hp Ib) as HS. split.
    + eapply supp_peq; [symmetry; etransitivity; [exact HS|apply HP; lia]|]. apply supp_padd; [apply supp_psum2|]. unfold qterm. destruct (_ && _); [|intros mo Hmo; exfalso; apply Hmo; reflexivity].
      eapply supp_peq; [symmetry; apply pmono_q1|]. apply supp_pscale. intros mo Hmo. exists (row (a + b - (c + 1))), [VQ]. split; [unfold short2, row; destruct (_ =? _); cbn; lia|].
      split; [|repeat constructor]. unfold pmono in Hmo. cbn [coef] in Hmo. destruct (mono_eqb _ mo) eqn:E; [|exfalso; apply Hmo; ring]. apply mono_eqb_perm in E.
      apply Permutation_sym. exact E.
    + rewrite HS, D2_pieri by lia. cbn [D2]. rewrite (hclass_sv' c a) by (apply HI; auto). reflexivity.
Qed.
End Main.

(** ** IG(n-k,2n) *)
Section IG.
Variables k n : Z.
Hypothesis Hk : 0 <= k <= n.
Hypothesis Hn : 2 <= n - k.
Variable qq : bool.
Lemma P_C a b : 1 <= b <= a -> a <= n + k -> (k < a -> b < a) ->
  peq (P (piC k n qq) b [a]) (padd (psum2 (n + k) a b (kt (fun _ => 1%Qc) (kap k a b) a b)) (qterm (n + k) qq a b)).
Proof.
  intros Hb Ha Hs. destruct (piC_coefs k n qq b [a] Hk) as (p & W & E & HQ & H0 & H1 & H2); [apply kstrict_row1; lia|lia|].
  unfold P. rewrite E. apply (qcoefs_eq _ _ _ HQ).
  assert (HT : qcoefs (qterm (n + k) qq a b) (fun d mu => if (d =? 1)%nat && eqbl mu (row (a + b - (n + k + 1))) then (if qq && (n + k + 1 <=? a + b) then 1%Qc else 0%Qc) else 0%Qc)).
  { unfold qterm. destruct (qq && (n + k + 1 <=? a + b)).
    - apply qcoefs_single. apply pmono_q1.
    - apply qcoefs_zero. intros d mu. destruct (_ && _); reflexivity. }
  eapply qcoefs_ext; [|apply qcoefs_padd; [apply qcoefs_psum2; lia|exact HT]].
  intros [|[|d]] mu; cbn [Nat.eqb andb].
  - rewrite (termC2 k n a b ltac:(lia) Hn Hb Hs mu _ (H0 mu)). destruct (inb (n + k) a b mu); [|ring].
    unfold kt. field; try (intros EE; discriminate EE).
  - specialize (H1 mu). destruct qq; cbn [andb].
    + rewrite (termC2q k n a b ltac:(lia) Hn Hb Ha Hs mu _ H1). destruct (n + k + 1 <=? a + b), (eqbl mu (row (a + b - (n + k + 1)))); cbn [andb]; ring.
    + rewrite H1. destruct (eqbl _ _); ring.
  - rewrite H2 by lia. ring.
Qed.
Lemma giam_IG a b : kstrict_in k (n - k) (n + k) [a; b] -> exists E, giambelli_rec_inner (giam_fuel (mkGr TC k n)) (piC k n qq) k [a; b] = Ok E /\
  peq E (padd (two_row (n + k) a b (weight_two k a b)) (corr (n + k) qq a b)).
Proof.
  intros HV. destruct (giam_two (n + k) (n - k) (sysC k n Hk qq) ltac:(reflexivity) (specialC k n Hk ltac:(lia) qq)
    qq (fun _ => 1%Qc) ltac:(intros z E; discriminate E) P_C ltac:(intros _; split; [lia|reflexivity]) a b HV) as (E & E1 & E2).
  exists E. split; auto. rewrite E2. unfold T2. apply padd_proper; [|reflexivity]. apply two_row_ext. intros i _. unfold wt. field; try (intros EE; discriminate EE).
Qed.
End IG.

(** ** OG(n-k,2n+1) *)
Lemma size_nonneg' mu : (forall j, (j < length mu)%nat -> 0 < part mu j) -> 0 <= size mu.
Proof.
  unfold size. induction mu as [|z t IH]; intros HP; cbn [fold_right]; [lia|]. pose proof (HP 0%nat ltac:(cbn; lia)) as H0. change (part (z :: t) 0) with z in H0.
  specialize (IH (fun j Hj => HP (S j) ltac:(cbn; lia))). lia.
Qed.
Section OG.
Variables k n : Z.
Hypothesis Hk : 0 <= k <= n.
Hypothesis Hn : 2 <= n - k.
Variable qq : bool.
Let Hok : okB qq k n. Proof. split; [lia|]. split; lia. Qed.
Lemma no_top a b mu v : 1 <= b -> b < n + k -> coef_OG k n b (tl [a]) (n + k :: mu) v -> v = 0%Qc.
Proof.
  intros Hb Hbn [((((HP & _) & _) & Hs & _) & _)|(_ & ->)]; auto. exfalso. destruct HP as [HP _]. pose proof (size_nonneg' mu (fun j Hj => HP (S j) ltac:(cbn; lia))) as G.
  cbn [tl] in Hs. unfold size in *. cbn [fold_right] in Hs. lia.
Qed.
Lemma P_B a b : 1 <= b <= a -> a <= n + k -> (k < a -> b < a) ->
  peq (P (piB k n qq) b [a]) (padd (psum2 (n + k) a b (kt (twice k) (kap k a b) a b)) (qterm (n + k) false a b)).
Proof.
  intros Hb Ha Hs. destruct (piB_coefs k n qq b [a] Hok) as (p & W & E & HQ & H0 & H1 & H2); [apply kstrict_row1; lia|].
  unfold P. rewrite E. apply (qcoefs_eq _ _ _ HQ).
  eapply qcoefs_ext; [|apply qcoefs_padd; [apply qcoefs_psum2; lia|apply (qcoefs_zero (fun _ _ => 0%Qc)); reflexivity]].
  assert (HT : forall mu v, (if part [a] 0 =? n + k then coef_OG k n b (tl [a]) (n + k :: mu) v else v = 0%Qc) -> v = 0%Qc).
  { intros mu v Hv. change (part [a] 0) with a in Hv. destruct (Z.eqb_spec a (n + k)); auto. apply (no_top a b mu); auto; lia. }
  intros d mu. cbv beta. specialize (H1 mu). destruct d as [|[|[|d]]]; cbn [Nat.eqb andb].
  - rewrite (termB2 k n a b ltac:(lia) Hn Hb Hs mu _ (H0 mu)). destruct (inb (n + k) a b mu); ring.
  - assert (E1 : W 1%nat mu = 0%Qc).
    { destruct qq; [|apply H1]. destruct (k =? 0); [apply (HT mu); apply H1|].
      destruct H1 as [H1 _]. cbn [length] in H1. destruct (Z.eqb_spec (Z.of_nat 1) (n - k)); [lia|]. exact H1. }
    rewrite E1. ring.
  - assert (E1 : W 2%nat mu = 0%Qc) by (destruct qq; [|apply H1]; destruct (k =? 0); [apply H1|apply (HT mu); apply H1]).
    rewrite E1. ring.
  - rewrite H2 by lia. ring.
Qed.
Lemma giam_OG a b : kstrict_in k (n - k) (n + k) [a; b] -> exists E, giambelli_rec_inner (giam_fuel (mkGr TB k n)) (piB k n qq) k [a; b] = Ok E /\
  peq E (two_row (n + k) a b (weight_two_OG k a b)).
Proof.
  intros HV. destruct (giam_two (n + k) (n - k) (sysB k n qq Hok) ltac:(reflexivity) (specialB k n Hk ltac:(lia) qq)
    false (twice k) ltac:(intros z; unfold twice; destruct (_ <? _); intros E; discriminate E) P_B ltac:(discriminate) a b HV) as (E & E1 & E2).
  exists E. split; auto. rewrite E2. unfold T2, corr. cbn [andb]. transitivity (two_row (n + k) a b (wt (twice k) (weight_two k a b) a b)); [ring|].
  apply two_row_ext. intros i _. reflexivity.
Qed.
End OG.

Lemma c69_IG m N g a b : IsotropicGrassmannian m N = Ok g -> class_IG m N [a; b] ->
  (exists x, giambelli g (pS [a; b]) = Ok x /\ peq x (two_row (N - m) a b (weight_two (N / 2 - m) a b))) /\
  (exists y, qgiambelli g (pS [a; b]) = Ok y /\
    (a + b <= N - m -> peq y (two_row (N - m) a b (weight_two (N / 2 - m) a b))) /\
    (N - m < a + b -> peq y (padd (two_row (N - m) a b (weight_two (N / 2 - m) a b))
       (pscale (sign (Z.to_nat (N - m + 1 - a))) (pmul (pvar VQ) (hclass (N - m) (a + b - (N - m + 1)))))))).
Proof.
  intros Hg HV. pose proof Hg as Hg'. apply ig_inv in Hg'. destruct Hg' as (n & EN & En & Hmn & ->). unfold class_IG in HV. rewrite En in *.
  assert (Ek : exists k, k = n - m) by eauto. destruct Ek as [k Ek]. rewrite <- Ek in *. assert (EM : N - m = n + k) by lia. rewrite EM in *. clear EM.
  replace m with (n - k) in HV by lia. assert (Hn : 2 <= n - k) by (destruct HV as ((_ & HV & _) & _); cbn [length] in HV; lia).
  assert (HG : forall qq, exists e, apply_lc (on_part (giambelli_rec_inner (giam_fuel (mkGr TC k n)) (piC k n qq) k)) (pS [a; b]) = Ok e /\
    peq e (padd (two_row (n + k) a b (weight_two k a b)) (corr (n + k) qq a b))).
  { intros qq. destruct (giam_IG k n ltac:(lia) Hn qq a b HV) as (E & E1 & E2).
    destruct (on_class (giambelli_rec_inner (giam_fuel (mkGr TC k n)) (piC k n qq) k) [a; b] E E1) as (e & Ee & Pe).
    exists e. split; auto. rewrite Pe. exact E2. }
  split.
  - destruct (HG false) as (e & Ee & Pe). exists e. split; [exact Ee|]. rewrite Pe. unfold corr. cbn [andb]. ring.
  - destruct (HG true) as (e & Ee & Pe). exists e. split; [exact Ee|]. unfold corr in Pe. cbn [andb] in Pe. split; intros L.
    + rewrite Pe. destruct (Z.leb_spec (n + k + 1) (a + b)); [lia|]. ring.
    + rewrite Pe. destruct (Z.leb_spec (n + k + 1) (a + b)); [|lia]. reflexivity.
Qed.
Lemma c69_OG m N g a b : OrthogonalGrassmannian m N = Ok g -> Z.odd N = true -> m <= N / 2 -> class_OG m N [a; b] ->
  (exists x, giambelli g (pS [a; b]) = Ok x /\ peq x (two_row (N - 1 - m) a b (weight_two_OG (N / 2 - m) a b))) /\
  (exists y, qgiambelli g (pS [a; b]) = Ok y /\ peq y (two_row (N - 1 - m) a b (weight_two_OG (N / 2 - m) a b))).
Proof.
  intros Hg HN Hm HV. assert (Ev : Z.even N = false) by (rewrite <- Z.negb_odd, HN; reflexivity).
  assert (Hm2 : 2 <= m) by (unfold class_OG in HV; rewrite Ev in HV; destruct HV as ((_ & HV & _) & _); cbn [length] in HV; lia).
  destruct (og_inv m N g Hg ltac:(lia)) as [(n & EN & En & _ & Hmn & ->)|(n & _ & _ & Ev' & _)]; [|congruence]. unfold class_OG in HV. rewrite Ev in HV. cbv iota in HV. rewrite En in *.
  assert (Ek : exists k, k = n - m) by eauto. destruct Ek as [k Ek]. rewrite <- Ek in *. assert (EM : N - 1 - m = n + k) by lia. rewrite EM in *. clear EM.
  replace m with (n - k) in HV by lia.
  assert (HG : forall qq, exists e, apply_lc (on_part (giambelli_rec_inner (giam_fuel (mkGr TB k n)) (piB k n qq) k)) (pS [a; b]) = Ok e /\
    peq e (two_row (n + k) a b (weight_two_OG k a b))).
  { intros qq. destruct (giam_OG k n ltac:(lia) ltac:(lia) qq a b HV) as (E & E1 & E2).
    destruct (on_class (giambelli_rec_inner (giam_fuel (mkGr TB k n)) (piB k n qq) k) [a; b] E E1) as (e & Ee & Pe).
    exists e. split; auto. rewrite Pe. exact E2. }
  split; [apply (HG false)|apply (HG true)].
Qed.
