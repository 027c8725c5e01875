(** The transfer matrices of the Pieri rule of type D.

    The operators of OG(n+1-k,2n+2) are combinations of the operators with
    coefficients 2^N and the difference of the two operators of degree k.  The
    former are given by the automaton of Transfer.v with another weight at the
    last letter, the latter by a signed automaton without the fourth state. *)

From Coq Require Import ZArith List Lia Bool QArith Qcanon.
From Verif Require Import Py PyFacts FillFacts Enum Word Transfer.
Import ListNotations.
Open Scope Z_scope.
Open Scope Qc_scope.

(** ** the last letter *)
Definition fT (t : Qc) (b : st) (x y : letter) : Qc :=
  match b, x, y with
  | S0, LE, LE => 1 | S0, LL, LL => 1 | S0, LR, LR => 1
  | S1, LL, LE => 1 | S1, LR, LE => 1
  | S2, LE, LL => 1 | S2, LE, LR => 1
  | S3, LE, LE => two * t | S3, LL, LL => two | S3, LR, LR => two
  | _, _, _ => 0
  end.
Definition finD (t : Qc) (b : st) (w v : word) : Qc := match w, v with [x], [y] => fT t b x y | _, _ => 0 end.

Lemma hfin_D s t w v a b : s <> 0 -> t <> 0 -> s + t <> 0 -> length w = 1%nat -> length v = 1%nat ->
  F2 finD s t 0 1 w v a b = Rop s t (F2 finD t s 0 1 w v) a b.
Proof.
  intros Hs Ht Hst Hw Hv. assert (Hts : t + s <> 0) by (rewrite Qcplus_comm; auto).
  destruct w as [|x [|? ?]]; try discriminate. destruct v as [|z [|? ?]]; try discriminate.
  unfold F2. cbn [plus allw map app]. rewrite !qsum_cons. unfold Rop. rewrite !qsum_cons. cbn [run finD].
  rewrite !qsum_nil. unfold two. destruct x, z, a, b; cbn [fT]; unfold two; try ring; field; nz.
Qed.

(** ** the signed automaton *)
Definition dn (a : st) (x y : letter) : option (st * Qc) :=
  match a, x, y with
  | S0, LE, LR => Some (S1, - (1)) | S0, LR, LR => Some (S0, 1) | S0, LL, LL => Some (S0, 1) | S0, LL, LE => Some (S2, 1)
  | S1, LE, LE => Some (S1, - (1)) | S1, LR, LE => Some (S0, 1) | S1, LL, LL => Some (S1, 1)
  | S2, LE, LE => Some (S2, 1) | S2, LE, LL => Some (S0, 1) | S2, LR, LR => Some (S2, 1)
  | _, _, _ => None
  end.
Definition fS (b : st) (x y : letter) : Qc :=
  match b, x, y with
  | S0, LL, LL => 1 | S0, LR, LR => - (1)
  | S1, LL, LE => 1 | S1, LR, LE => - (1)
  | S2, LE, LL => 1 | S2, LE, LR => - (1)
  | _, _, _ => 0
  end.
Definition finS (b : st) (w v : word) : Qc := match w, v with [x], [y] => fS b x y | _, _ => 0 end.
Fixpoint drun (m : nat) (a : st) (w v : word) : Qc :=
  match m with
  | O => finS a w v
  | S m => match w, v with
           | x :: w', y :: v' => match dn a x y with Some (a', s) => s * drun m a' w' v' | None => 0 end
           | _, _ => 0
           end
  end.

Definition Xop (t : Qc) (G : st -> st -> Qc) (a b : st) : Qc :=
  match a, b with
  | S0, S0 => G S0 S0
  | S0, S1 => G S0 S1
  | S0, S2 => / t * G S0 S2 - / t * G S2 S0
  | S0, S3 => G S3 S0 - two * G S2 S1
  | S1, S0 => G S0 S1 - t * G S1 S0
  | S1, S1 => - t * G S1 S1
  | S1, S2 => G S3 S0 - G S1 S2 - G S2 S1
  | S1, S3 => t * G S3 S1
  | S2, S0 => G S2 S0
  | S2, S1 => G S2 S1
  | S2, S2 => / t * G S2 S2
  | S2, S3 => / t * G S3 S2
  | S3, _ => 0
  end.

Definition termDT (t : Qc) (x y z : letter) (G : st -> st -> Qc) (a b : st) : Qc :=
  match dn a x y, nxt b y z with Some (a', s), Some b' => s * wt t b y z * G a' b' | _, _ => 0 end.
Definition termTD (t : Qc) (x y z : letter) (G : st -> st -> Qc) (a b : st) : Qc :=
  match nxt a x y, dn b y z with Some a', Some (b', s) => wt t a x y * s * G a' b' | _, _ => 0 end.
Definition MDT t x z G a b := termDT t x LE z G a b + termDT t x LR z G a b + termDT t x LL z G a b.
Definition MTD t x z G a b := termTD t x LE z G a b + termTD t x LR z G a b + termTD t x LL z G a b.

Lemma ybeD t x z G a b : t <> 0 -> MDT t x z (Xop t G) a b = Xop t (MTD t x z G) a b.
Proof.
  intros Ht. destruct x, z, a, b; unfold MDT, MTD, termDT, termTD, Xop, wt, two; cbn [nxt dn dg ex Qcpower]; try ring; field; nz.
Qed.

(** ** double sums *)
Definition FDT (t : Qc) (m : nat) (w v : word) (a b : st) : Qc :=
  qsum (fun y => drun m a w y * run finD t m b y v) (allw (m + 1)).
Definition FTD (t : Qc) (m : nat) (w v : word) (a b : st) : Qc :=
  qsum (fun y => run finD t m a w y * drun m b y v) (allw (m + 1)).

Lemma FDT_step t m x w z v a b : FDT t (S m) (x :: w) (z :: v) a b = MDT t x z (FDT t m w v) a b.
Proof.
  unfold FDT, MDT. cbn [plus allw]. rewrite !qsum_app, !qsum_map.
  assert (H : forall y, qsum (fun u => drun (S m) a (x :: w) (y :: u) * run finD t (S m) b (y :: u) (z :: v)) (allw (m + 1)) =
     termDT t x y z (FDT t m w v) a b).
  { intros y. unfold termDT. cbn [run drun]. destruct (dn a x y) as [[a' s]|].
    - destruct (nxt b y z) as [b'|].
      + unfold FDT. rewrite <- qsum_mul. apply qsum_ext. intros u _. ring.
      + apply qsum_zero. intros u _. ring.
    - apply qsum_zero. intros u _. ring. }
  rewrite !H. unfold FDT. ring.
Qed.
Lemma FTD_step t m x w z v a b : FTD t (S m) (x :: w) (z :: v) a b = MTD t x z (FTD t m w v) a b.
Proof.
  unfold FTD, MTD. cbn [plus allw]. rewrite !qsum_app, !qsum_map.
  assert (H : forall y, qsum (fun u => run finD t (S m) a (x :: w) (y :: u) * drun (S m) b (y :: u) (z :: v)) (allw (m + 1)) =
     termTD t x y z (FTD t m w v) a b).
  { intros y. unfold termTD. cbn [run drun]. destruct (nxt a x y) as [a'|].
    - destruct (dn b y z) as [[b' s]|].
      + unfold FTD. rewrite <- qsum_mul. apply qsum_ext. intros u _. ring.
      + apply qsum_zero. intros u _. ring.
    - apply qsum_zero. intros u _. ring. }
  rewrite !H. unfold FTD. ring.
Qed.
Lemma Xop_ext t G G' a b : (forall a b, G a b = G' a b) -> Xop t G a b = Xop t G' a b.
Proof. intros H. unfold Xop. destruct a, b; rewrite ?H; reflexivity. Qed.
Lemma MDT_ext t x z G G' a b : (forall a b, G a b = G' a b) -> MDT t x z G a b = MDT t x z G' a b.
Proof.
  intros H. unfold MDT, termDT. destruct (dn a x LE) as [[? ?]|], (dn a x LR) as [[? ?]|], (dn a x LL) as [[? ?]|], (nxt b LE z), (nxt b LR z), (nxt b LL z);
    rewrite ?H; reflexivity.
Qed.
Lemma hfin_X t w v a b : t <> 0 -> length w = 1%nat -> length v = 1%nat -> FDT t 0 w v a b = Xop t (FTD t 0 w v) a b.
Proof.
  intros Ht Hw Hv.
  destruct w as [|x [|? ?]]; try discriminate. destruct v as [|z [|? ?]]; try discriminate.
  unfold FDT, FTD. cbn [plus allw map app]. rewrite !qsum_cons. unfold Xop. rewrite !qsum_cons. cbn [run finD drun finS].
  rewrite !qsum_nil. unfold two. destruct x, z, a, b; cbn [fT fS]; unfold two; try ring; field; nz.
Qed.
Theorem FDT_swap t : t <> 0 -> forall m w v a b, length w = (m + 1)%nat -> length v = (m + 1)%nat ->
  FDT t m w v a b = Xop t (FTD t m w v) a b.
Proof.
  intros Ht. induction m as [|m IH]; intros w v a b Hw Hv; [apply hfin_X; auto|].
  destruct w as [|x w]; [discriminate|]. destruct v as [|z v]; [discriminate|]. injection Hw as Hw. injection Hv as Hv.
  rewrite FDT_step. rewrite (MDT_ext t x z _ (Xop t (FTD t m w v))) by (intros; apply IH; auto).
  rewrite ybeD by auto. apply Xop_ext. intros. symmetry. apply FTD_step.
Qed.
