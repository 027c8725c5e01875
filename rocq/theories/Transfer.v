(** The transfer matrices of the Pieri rules of types B, C and D.

    Reading two words letter by letter, the relation of the Pieri rules and its
    multiplicities are recognised by an automaton with four states.  The generating
    functions of two such automata with different parameters commute: there is a
    matrix [Rop] exchanging the two parameters at every letter. *)

From Coq Require Import ZArith List Lia Bool QArith Qcanon.
From Verif Require Import Py PyFacts FillFacts Enum Word.
Import ListNotations.
Open Scope Z_scope.

Inductive st := S0 | S1 | S2 | S3.

(** the state after reading the letter [x] of the first word and [y] of the second *)
Definition nxt (a : st) (x y : letter) : option st :=
  match a, x, y with
  | S0, LE, LE => Some S0 | S0, LR, LR => Some S0 | S0, LL, LL => Some S0
  | S0, LE, LR => Some S1 | S0, LL, LE => Some S2 | S0, LL, LR => Some S3
  | S1, LE, LE => Some S1 | S1, LL, LL => Some S1 | S1, LR, LE => Some S0 | S1, LL, LE => Some S3
  | S2, LE, LE => Some S2 | S2, LR, LR => Some S2 | S2, LE, LR => Some S3 | S2, LE, LL => Some S0
  | S3, LE, LE => Some S3 | S3, LR, LR => Some S3 | S3, LL, LL => Some S3
  | S3, LE, LL => Some S1 | S3, LR, LE => Some S2 | S3, LR, LL => Some S0
  | _, _, _ => None
  end.
(** the boxes added by this step *)
Definition dg (a : st) (x y : letter) : nat :=
  match a, x, y with
  | S0, LE, LR => 1 | S0, LL, LE => 1 | S0, LL, LR => 1
  | S1, LE, LE => 1 | S1, LL, LE => 1
  | S2, LE, LE => 1 | S2, LE, LR => 1
  | S3, LE, LE => 2 | S3, LR, LR => 1 | S3, LL, LL => 1 | S3, LE, LL => 1 | S3, LR, LE => 1
  | _, _, _ => 0
  end%nat.
(** a run of free columns ends *)
Definition ex (a : st) (x y : letter) : nat :=
  match a, x, y with
  | S3, LE, LL => 1 | S3, LR, LE => 1 | S3, LR, LL => 1
  | _, _, _ => 0
  end%nat.

Open Scope Qc_scope.
Definition two : Qc := 1 + 1.
Definition wt (t : Qc) (a : st) (x y : letter) : Qc := t ^ dg a x y * two ^ ex a x y.

(** the sum over the middle letter *)
Definition term (s t : Qc) (x y z : letter) (G : st -> st -> Qc) (a b : st) : Qc :=
  match nxt a x y, nxt b y z with
  | Some a', Some b' => wt s a x y * wt t b y z * G a' b'
  | _, _ => 0
  end.
Definition M2 (s t : Qc) (x z : letter) (G : st -> st -> Qc) (a b : st) : Qc :=
  term s t x LE z G a b + term s t x LR z G a b + term s t x LL z G a b.

Definition Rop (s t : Qc) (G : st -> st -> Qc) (a b : st) : Qc :=
  let p := / (s + t) in
  match a, b with
  | S0, S0 => G S0 S0
  | S0, S1 => G S0 S1
  | S0, S2 => (s / t) * G S0 S2 + ((t - s) / t) * G S2 S0
  | S0, S3 => two * s * p * G S0 S3 + two * s * (t - s) * p * G S2 S1 + (t - s) * p * G S3 S0
  | S1, S0 => ((s - t) / s) * G S0 S1 + (t / s) * G S1 S0
  | S1, S1 => (t / s) * G S1 S1
  | S1, S2 => (s - t) * p * G S0 S3 + G S1 S2 + - ((s - t) * (s - t) * p) * G S2 S1 + (t - s) * p * G S3 S0
  | S1, S3 => two * t * p * G S1 S3 + t * (t - s) * p * G S3 S1
  | S2, S0 => G S2 S0
  | S2, S1 => G S2 S1
  | S2, S2 => (s / t) * G S2 S2
  | S2, S3 => two * s * p * G S2 S3 + (t - s) * p / t * G S3 S2
  | S3, S0 => (s - t) * p * G S0 S3 + two * t * (s - t) * p * G S2 S1 + two * t * p * G S3 S0
  | S3, S1 => (s - t) * p / s * G S1 S3 + two * t * p * G S3 S1
  | S3, S2 => s * (s - t) * p * G S2 S3 + two * s * p * G S3 S2
  | S3, S3 => G S3 S3
  end.

Ltac nz := repeat split; auto; try (intros HH; discriminate HH).
Lemma ybe s t x z G a b : s <> 0 -> t <> 0 -> s + t <> 0 ->
  M2 s t x z (Rop s t G) a b = Rop s t (M2 t s x z G) a b.
Proof.
  intros Hs Ht Hst. assert (Hts : t + s <> 0) by (rewrite Qcplus_comm; auto).
  destruct x, z, a, b; unfold M2, term, Rop, wt, two; cbn [nxt dg ex Qcpower]; try (field; nz).
Qed.

(** ** sums over lists *)
Definition qsum {A} (f : A -> Qc) (l : list A) : Qc := fold_right (fun x s => f x + s) 0 l.
Lemma qsum_nil {A} (f : A -> Qc) : qsum f [] = 0.
Proof. reflexivity. Qed.
Lemma qsum_cons {A} (f : A -> Qc) x l : qsum f (x :: l) = f x + qsum f l.
Proof. reflexivity. Qed.
Lemma qsum_app {A} (f : A -> Qc) l1 l2 : qsum f (l1 ++ l2) = qsum f l1 + qsum f l2.
Proof. induction l1 as [|x l IH]; cbn [app]; rewrite ?qsum_nil, ?qsum_cons, ?IH; ring. Qed.
Lemma qsum_map {A B} (g : A -> B) (f : B -> Qc) l : qsum f (map g l) = qsum (fun x => f (g x)) l.
Proof. induction l as [|x l IH]; cbn [map]; rewrite ?qsum_nil, ?qsum_cons, ?IH; reflexivity. Qed.
Lemma qsum_ext {A} (f g : A -> Qc) l : (forall x, In x l -> f x = g x) -> qsum f l = qsum g l.
Proof.
  induction l as [|x l IH]; intros H; rewrite ?qsum_nil, ?qsum_cons; auto.
  rewrite H by (left; auto). rewrite IH; auto. intros y Hy. apply H. right. auto.
Qed.
Lemma qsum_mul {A} (c : Qc) (f : A -> Qc) l : qsum (fun x => c * f x) l = c * qsum f l.
Proof. induction l as [|x l IH]; rewrite ?qsum_nil, ?qsum_cons, ?IH; ring. Qed.
Lemma qsum_add {A} (f g : A -> Qc) l : qsum (fun x => f x + g x) l = qsum f l + qsum g l.
Proof. induction l as [|x l IH]; rewrite ?qsum_nil, ?qsum_cons, ?IH; ring. Qed.
Lemma qsum_zero {A} (f : A -> Qc) l : (forall x, In x l -> f x = 0) -> qsum f l = 0.
Proof.
  induction l as [|x l IH]; intros H; rewrite ?qsum_nil, ?qsum_cons; auto.
  rewrite H by (left; auto). rewrite IH; [ring|]. intros y Hy. apply H. right. auto.
Qed.

Fixpoint allw (n : nat) : list word :=
  match n with
  | O => [[]]
  | S n => map (cons LE) (allw n) ++ map (cons LR) (allw n) ++ map (cons LL) (allw n)
  end.
Lemma in_allw n w : In w (allw n) <-> length w = n.
Proof.
  revert w. induction n as [|n IH]; intros w; cbn [allw].
  - split; [intros [<-|[]]; auto|]. destruct w; [left; auto|discriminate].
  - rewrite !in_app_iff, !in_map_iff. split.
    + intros [(v & <- & Hv)|[(v & <- & Hv)|(v & <- & Hv)]]; apply IH in Hv; cbn; lia.
    + destruct w as [|x w]; [discriminate|]. intros H. injection H as H. apply IH in H.
      destruct x; [left|right; left|right; right]; exists w; auto.
Qed.
Lemma allw_nodup n : NoDup (allw n).
Proof.
  induction n as [|n IH]; cbn [allw]; [constructor; [simpl; tauto|constructor]|].
  assert (Hm : forall x, NoDup (map (cons x) (allw n))) by (intros x; apply FinFun.Injective_map_NoDup; auto; intros a b E; injection E; auto).
  apply nodup_app; auto.
  - apply nodup_app; auto. intros a H1 H2. apply in_map_iff in H1, H2. destruct H1 as (u & <- & _). destruct H2 as (v & E & _). discriminate.
  - intros a H1 H2. apply in_app_iff in H2. apply in_map_iff in H1. destruct H1 as (u & <- & _).
    destruct H2 as [H2|H2]; apply in_map_iff in H2; destruct H2 as (v & E & _); discriminate.
Qed.

(** ** runs *)
Section Run.
(** the weight of the letters that are left after [m] steps *)
Variable fin : Qc -> st -> word -> word -> Qc.

Fixpoint run (t : Qc) (m : nat) (a : st) (w v : word) : Qc :=
  match m with
  | O => fin t a w v
  | S m => match w, v with
           | x :: w', y :: v' => match nxt a x y with Some a' => wt t a x y * run t m a' w' v' | None => 0 end
           | _, _ => 0
           end
  end.

Definition F2 (s t : Qc) (m e : nat) (w v : word) (a b : st) : Qc :=
  qsum (fun y => run s m a w y * run t m b y v) (allw (m + e)).

Lemma F2_step s t m e x w z v a b : F2 s t (S m) e (x :: w) (z :: v) a b = M2 s t x z (F2 s t m e w v) a b.
Proof.
  unfold F2, M2. cbn [plus allw]. rewrite !qsum_app, !qsum_map.
  assert (H : forall y, qsum (fun u => run s (S m) a (x :: w) (y :: u) * run t (S m) b (y :: u) (z :: v)) (allw (m + e)) =
     term s t x y z (fun a b => qsum (fun u => run s m a w u * run t m b u v) (allw (m + e))) a b).
  { intros y. unfold term. cbn [run]. destruct (nxt a x y) as [a'|].
    - destruct (nxt b y z) as [b'|].
      + rewrite <- qsum_mul. apply qsum_ext. intros u _. ring.
      + apply qsum_zero. intros u _. ring.
    - apply qsum_zero. intros u _. ring. }
  rewrite !H. ring.
Qed.

Lemma Rop_ext s t G G' a b : (forall a b, G a b = G' a b) -> Rop s t G a b = Rop s t G' a b.
Proof. intros H. unfold Rop. destruct a, b; rewrite ?H; reflexivity. Qed.
Lemma M2_ext s t x z G G' a b : (forall a b, G a b = G' a b) -> M2 s t x z G a b = M2 s t x z G' a b.
Proof. intros H. unfold M2, term. destruct (nxt a x LE), (nxt a x LR), (nxt a x LL), (nxt b LE z), (nxt b LR z), (nxt b LL z); rewrite ?H; reflexivity. Qed.

Variable e : nat.
Hypothesis Hfin : forall s t w v a b, s <> 0 -> t <> 0 -> s + t <> 0 -> length w = e -> length v = e ->
  F2 s t 0 e w v a b = Rop s t (F2 t s 0 e w v) a b.

Theorem F2_swap s t : s <> 0 -> t <> 0 -> s + t <> 0 -> forall m w v a b, length w = (m + e)%nat -> length v = (m + e)%nat ->
  F2 s t m e w v a b = Rop s t (F2 t s m e w v) a b.
Proof.
  intros Hs Ht Hst. induction m as [|m IH]; intros w v a b Hw Hv; [apply Hfin; auto|].
  destruct w as [|x w]; [discriminate|]. destruct v as [|z v]; [discriminate|]. injection Hw as Hw. injection Hv as Hv.
  rewrite F2_step. rewrite (M2_ext s t x z _ (Rop s t (F2 t s m e w v))) by (intros; apply IH; auto).
  rewrite ybe by auto. apply Rop_ext. intros. symmetry. apply F2_step.
Qed.
End Run.

(** ** the path of a run *)
Fixpoint walk (m : nat) (a : st) (w v : word) : option (nat * nat * st) :=
  match m with
  | O => Some (O, O, a)
  | S m => match w, v with
           | x :: w', y :: v' =>
             match nxt a x y with
             | Some a' => match walk m a' w' v' with
                          | Some (g, x0, b) => Some (dg a x y + g, ex a x y + x0, b)%nat
                          | None => None
                          end
             | None => None
             end
           | _, _ => None
           end
  end.
Lemma Qcpower_add (t : Qc) m n : t ^ (m + n) = t ^ m * t ^ n.
Proof. induction m as [|m IH]; cbn [plus Qcpower]; [ring|]. rewrite IH. ring. Qed.
Lemma run_walk fin t m : forall a w v, run fin t m a w v =
  match walk m a w v with
  | Some (g, x, b) => t ^ g * two ^ x * fin t b (skipn m w) (skipn m v)
  | None => 0
  end.
Proof.
  induction m as [|m IH]; intros a w v; cbn [run walk skipn Qcpower].
  - cbn [Qcpower]. ring.
  - destruct w as [|x w]; [reflexivity|]. destruct v as [|y v]; [reflexivity|].
    destruct (nxt a x y) as [a'|]; [|reflexivity]. rewrite IH. destruct (walk m a' w v) as [[[g x0] b]|]; [|ring].
    unfold wt. rewrite !Qcpower_add. cbn [skipn]. ring.
Qed.
