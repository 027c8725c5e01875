(** Equal polynomial functions have equal coefficients. *)

From Coq Require Import ZArith List Lia Bool QArith Qcanon.
From Verif Require Import Py PyFacts FillFacts Enum Word Transfer.
Import ListNotations.
Open Scope Qc_scope.

(** ** dense polynomials *)
Fixpoint hev (a : list Qc) (s : Qc) : Qc := match a with [] => 0 | c :: a' => c + s * hev a' s end.
Fixpoint sdiv (r : Qc) (a : list Qc) : list Qc :=
  match a with
  | [] => []
  | _ :: a' => match a' with [] => [] | _ => hev a' r :: sdiv r a' end
  end.
Lemma sdiv_len r a : length (sdiv r a) = pred (length a).
Proof. induction a as [|c a IH]; auto. cbn [sdiv]. destruct a; auto. cbn [length] in *. rewrite IH. reflexivity. Qed.
Lemma sdiv_ok r a s : hev a s = (s - r) * hev (sdiv r a) s + hev a r.
Proof.
  induction a as [|c a IH]; [cbn; ring|]. cbn [sdiv]. destruct a as [|c' a].
  - cbn. ring.
  - set (a' := c' :: a) in *. change (hev (c :: a') s) with (c + s * hev a' s). change (hev (c :: a') r) with (c + r * hev a' r).
    change (hev (hev a' r :: sdiv r a') s) with (hev a' r + s * hev (sdiv r a') s).
    transitivity (c + s * ((s - r) * hev (sdiv r a') s + hev a' r)); [rewrite <- IH; ring|ring].
Qed.
Lemma sdiv_zero r a : hev a r = 0 -> Forall (fun c => c = 0) (sdiv r a) -> Forall (fun c => c = 0) a.
Proof.
  induction a as [|c a IH]; intros H1 H2; [constructor|]. cbn [sdiv] in H2. destruct a as [|c' a].
  - cbn in H1. constructor; auto. rewrite <- H1. ring.
  - set (a' := c' :: a) in *. change (hev (c :: a') r) with (c + r * hev a' r) in H1. pose proof (Forall_inv H2) as H3. pose proof (Forall_inv_tail H2) as H4. cbv beta in H3.
    constructor; [rewrite H3 in H1; rewrite <- H1; ring|]. apply IH; auto.
Qed.
Lemma roots_zero n : forall a roots, (length a <= n)%nat -> NoDup roots -> length roots = n -> (forall r, In r roots -> hev a r = 0) ->
  Forall (fun c => c = 0) a.
Proof.
  induction n as [|n IH]; intros a roots Hl Hn Hr H.
  - destruct a; [constructor|cbn in Hl; lia].
  - destruct roots as [|r roots]; [discriminate|]. inversion Hn as [|? ? Hx Hn']; subst. injection Hr as Hr.
    pose proof (H r (or_introl eq_refl)) as H0. apply (sdiv_zero r); auto.
    apply (IH _ roots); auto; [rewrite sdiv_len; lia|]. intros r' Hr'.
    pose proof (H r' (or_intror Hr')) as H1. rewrite (sdiv_ok r) in H1. rewrite H0 in H1.
    assert (Hne : r' - r <> 0).
    { intros E. apply Hx. assert (r' = r) by (rewrite <- (Qcplus_0_l r), <- E; ring). subst. auto. }
    assert (H2 : (r' - r) * hev (sdiv r a) r' = 0) by (rewrite <- H1; ring).
    apply Qcmult_integral in H2. tauto.
Qed.

Definition zq (z : Z) : Qc := Q2Qc (inject_Z z).
Lemma zq_inj a b : zq a = zq b -> a = b.
Proof.
  unfold zq. intros H. apply Q2Qc_eq_iff in H. rename H into E.
  unfold Qeq in E. cbn in E. lia.
Qed.
Lemma zq_add a b : zq (a + b) = zq a + zq b.
Proof. unfold zq. apply Qc_is_canon. cbn [this Q2Qc Qcplus]. rewrite !Qred_correct. rewrite inject_Z_plus. reflexivity. Qed.
Lemma zq_0 : zq 0 = 0.
Proof. reflexivity. Qed.
Lemma zq_1 : zq 1 = 1.
Proof. reflexivity. Qed.

Lemma vanish a : (forall z, (0 < z)%Z -> hev a (zq z) = 0) -> Forall (fun c => c = 0) a.
Proof.
  intros H. apply (roots_zero (length a) a (map (fun i => zq (Z.of_nat i)) (seq 1 (length a)))); auto.
  - apply FinFun.Injective_map_NoDup; [|apply seq_NoDup]. intros i j E. apply zq_inj in E. lia.
  - rewrite map_length, seq_length. reflexivity.
  - intros r Hr. apply in_map_iff in Hr. destruct Hr as (i & <- & Hi). apply in_seq in Hi. apply H. lia.
Qed.

(** ** sums of monomials *)
Definition mlist := list (nat * Qc).
Definition ev (l : mlist) (s : Qc) : Qc := qsum (fun ec => snd ec * s ^ fst ec) l.
Definition co (l : mlist) (p : nat) : Qc := qsum (fun ec => if (fst ec =? p)%nat then snd ec else 0) l.
Definition msc (c : Qc) (l : mlist) : mlist := map (fun ec => (fst ec, c * snd ec)) l.

Lemma ev_app a b s : ev (a ++ b) s = ev a s + ev b s. Proof. apply qsum_app. Qed.
Lemma co_app a b p : co (a ++ b) p = co a p + co b p. Proof. apply qsum_app. Qed.
Lemma ev_msc c l s : ev (msc c l) s = c * ev l s.
Proof. unfold ev, msc. rewrite qsum_map. cbn [fst snd]. rewrite <- qsum_mul. apply qsum_ext. intros. ring. Qed.
Lemma co_msc c l p : co (msc c l) p = c * co l p.
Proof. unfold co, msc. rewrite qsum_map. cbn [fst snd]. rewrite <- qsum_mul. apply qsum_ext. intros x _. destruct (fst x =? p)%nat; ring. Qed.
Lemma ev_flat {A} (f : A -> mlist) ls s : ev (flat_map f ls) s = qsum (fun x => ev (f x) s) ls.
Proof. induction ls as [|x ls IH]; [reflexivity|]. cbn [flat_map]. rewrite ev_app, qsum_cons, IH. reflexivity. Qed.
Lemma co_flat {A} (f : A -> mlist) ls p : co (flat_map f ls) p = qsum (fun x => co (f x) p) ls.
Proof. induction ls as [|x ls IH]; [reflexivity|]. cbn [flat_map]. rewrite co_app, qsum_cons, IH. reflexivity. Qed.

Definition dense (N : nat) (l : mlist) : list Qc := map (co l) (seq 0 N).
Lemma hev_shift (f : nat -> Qc) N s : forall k, s ^ k * hev (map f (seq k N)) s = qsum (fun p => f p * s ^ p) (seq k N).
Proof.
  induction N as [|N IH]; intros k; cbn [seq map hev].
  - rewrite qsum_nil. ring.
  - rewrite qsum_cons, <- (IH (S k)). cbn [Qcpower]. ring.
Qed.
Lemma qsum_one (f : nat -> Qc) N e : forall k, (k <= e < k + N)%nat -> qsum (fun p => if (e =? p)%nat then f p else 0) (seq k N) = f e.
Proof.
  induction N as [|N IH]; intros k He; [lia|]. cbn [seq]. rewrite qsum_cons. destruct (Nat.eqb_spec e k) as [->|Hne].
  - rewrite qsum_zero; [ring|]. intros p Hp. apply in_seq in Hp. destruct (Nat.eqb_spec k p); [lia|auto].
  - rewrite IH by lia. ring.
Qed.
Lemma ev_dense N l s : (forall e c, In (e, c) l -> (e < N)%nat) -> ev l s = hev (dense N l) s.
Proof.
  intros H. pose proof (hev_shift (co l) N s 0) as E. cbn [Qcpower] in E. unfold dense.
  transitivity (1 * hev (map (co l) (seq 0 N)) s); [|ring]. rewrite E. clear E. unfold co, ev.
  induction l as [|[e c] l IH].
  - rewrite qsum_nil. symmetry. apply qsum_zero. intros p _. rewrite qsum_nil. ring.
  - rewrite qsum_cons. rewrite IH by (intros e' c' Hin; apply (H e' c'); right; auto).
    rewrite (qsum_ext (fun p => qsum (fun ec : nat * Qc => if (fst ec =? p)%nat then snd ec else 0) ((e, c) :: l) * s ^ p)
      (fun p => (if (e =? p)%nat then c * s ^ p else 0) + qsum (fun ec : nat * Qc => if (fst ec =? p)%nat then snd ec else 0) l * s ^ p)).
    + rewrite qsum_add. rewrite (qsum_one (fun p => c * s ^ p)) by (specialize (H e c (or_introl eq_refl)); lia). reflexivity.
    + intros p _. rewrite qsum_cons. cbn [fst snd]. destruct (e =? p)%nat; ring.
Qed.
Lemma mbound (l : mlist) : exists N, forall e c, In (e, c) l -> (e < N)%nat.
Proof.
  induction l as [|[e c] l (N & IH)]; [exists O; simpl; tauto|]. exists (S (Nat.max e N)). intros e' c' [E|Hin].
  - injection E as -> ->. lia.
  - specialize (IH e' c' Hin). lia.
Qed.
Lemma extract0 l : (forall z, (0 < z)%Z -> ev l (zq z) = 0) -> forall p, co l p = 0.
Proof.
  intros H p. destruct (mbound l) as (N & HN).
  assert (HF : Forall (fun c => c = 0) (dense (S (Nat.max p N)) l)).
  { apply vanish. intros z Hz. rewrite <- ev_dense; auto. intros e c Hin. specialize (HN e c Hin). lia. }
  rewrite Forall_forall in HF. apply HF. unfold dense. apply in_map. apply in_seq. lia.
Qed.
Lemma extract l l' : (forall z, (0 < z)%Z -> ev l (zq z) = ev l' (zq z)) -> forall p, co l p = co l' p.
Proof.
  intros H p. assert (E : co (l ++ msc (-(1)) l') p = 0).
  { apply extract0. intros z Hz. rewrite ev_app, ev_msc, H by auto. ring. }
  rewrite co_app, co_msc in E. transitivity (co l p + - (1) * co l' p + co l' p); [ring|]. rewrite E. ring.
Qed.

(** in two variables *)
Lemma extract2 {A} (ls : list A) (a b : A -> mlist) :
  (forall s t, (0 < s)%Z -> (0 < t)%Z -> qsum (fun x => ev (a x) (zq s) * ev (b x) (zq t)) ls = qsum (fun x => ev (a x) (zq t) * ev (b x) (zq s)) ls) ->
  forall p q, qsum (fun x => co (a x) p * co (b x) q) ls = qsum (fun x => co (a x) q * co (b x) p) ls.
Proof.
  intros H p q.
  assert (H1 : forall t, (0 < t)%Z -> qsum (fun x => co (a x) p * ev (b x) (zq t)) ls = qsum (fun x => ev (a x) (zq t) * co (b x) p) ls).
  { intros t Ht.
    pose proof (extract (flat_map (fun x => msc (ev (b x) (zq t)) (a x)) ls) (flat_map (fun x => msc (ev (a x) (zq t)) (b x)) ls)) as E.
    specialize (E ltac:(intros s Hs; rewrite !ev_flat; rewrite (qsum_ext _ (fun x => ev (a x) (zq s) * ev (b x) (zq t))) by (intros; rewrite ev_msc; ring);
      rewrite H by auto; apply qsum_ext; intros; rewrite ev_msc; ring) p).
    rewrite !co_flat in E. rewrite (qsum_ext _ (fun x => co (a x) p * ev (b x) (zq t))) in E by (intros; rewrite co_msc; ring).
    rewrite E. apply qsum_ext. intros. rewrite co_msc. ring. }
  pose proof (extract (flat_map (fun x => msc (co (a x) p) (b x)) ls) (flat_map (fun x => msc (co (b x) p) (a x)) ls)) as E.
  specialize (E ltac:(intros t Ht; rewrite !ev_flat; rewrite (qsum_ext _ (fun x => co (a x) p * ev (b x) (zq t))) by (intros; rewrite ev_msc; ring);
     rewrite H1 by auto; apply qsum_ext; intros; rewrite ev_msc; ring) q).
  rewrite !co_flat in E. rewrite (qsum_ext _ (fun x => co (a x) p * co (b x) q)) in E by (intros; rewrite co_msc; ring).
  rewrite E. apply qsum_ext. intros. rewrite co_msc. ring.
Qed.
