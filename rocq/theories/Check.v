(** Boolean tests for the notions of Spec.v, used only to show that concrete
    cases meet the hypotheses of the theorems. *)

From Coq Require Import ZArith List Lia Bool Permutation QArith Qcanon.
From Verif Require Import Py ModelPart ModelQcalc ModelPoly Spec PolyFacts SuppFacts OpTheory Sys Sys2.
Import ListNotations.
Open Scope Z_scope.

Fixpoint partb (prev : Z) (l : list Z) : bool :=
  match l with [] => true | x :: t => (0 <? x) && (x <=? prev) && partb x t end.
Definition in_boxb (m k : Z) (l : list Z) : bool := partb k l && (zlen l <=? m) && (0 <=? k).

Lemma partb_ok prev l : 0 <= prev -> partb prev l = true ->
  is_partition l /\ part l 0 <= prev.
Proof.
  revert prev. induction l as [|x l IH]; intros prev Hp H.
  - split; [split; [intros j Hj; simpl in Hj; lia|]|unfold part; simpl; lia].
    intros j. unfold part. destruct j; simpl; lia.
  - cbn [partb] in H. rewrite !andb_true_iff, Z.ltb_lt, Z.leb_le in H. destruct H as [[H1 H2] H3].
    destruct (IH x ltac:(lia) H3) as [[A B] C]. split; [|unfold part; simpl; lia]. split.
    + intros [|j] Hj; [unfold part; simpl; lia|]. apply (A j). simpl in Hj; lia.
    + intros [|j]; [exact C | exact (B j)].
Qed.
Lemma in_boxb_ok m k l : in_boxb m k l = true -> in_box m k l.
Proof.
  unfold in_boxb. rewrite !andb_true_iff, !Z.leb_le. intros [[H1 H2] H3].
  destruct (partb_ok k l H3 H1) as [A B]. split; auto.
Qed.

(** [q^d * S_mu] in any order *)
Definition linmb (Vb : list Z -> bool) (m : mono) : bool :=
  match filter (fun v => negb (match v with VQ => true | _ => false end)) m with
  | [VS (SP l)] => Vb l
  | _ => false
  end.
Lemma linmb_ok Vb (V : list Z -> Prop) m : (forall l, Vb l = true -> V l) -> linmb Vb m = true -> linm V (eq VQ) m.
Proof.
  intros HV. unfold linmb. induction m as [|v m IH]; [discriminate|].
  cbn [filter]. destruct v as [s| | |]; cbn [negb].
  - destruct (filter _ m) as [|w f] eqn:E.
    + destruct s as [l|]; [|discriminate]. intros Hl. exists l, m. split; auto. split; [apply Permutation_refl|].
      clear -E. induction m as [|v m IH]; constructor.
      * destruct v; auto; discriminate.
      * apply IH. destruct v; auto; discriminate.
    + destruct s; discriminate.
  - intros H. apply linm_cons; auto.
  - destruct (filter _ m); discriminate.
  - destruct (filter _ m); discriminate.
Qed.
Definition lin_combb (Vb : list Z -> bool) (p : poly) : bool := forallb (fun t => linmb Vb (fst t)) p.
Lemma lin_combb_ok Vb (V : list Z -> Prop) p : (forall l, Vb l = true -> V l) -> lin_combb Vb p = true -> lin_comb V p.
Proof.
  intros HV H. apply lin_comb_iff. apply rawsupp_supp; [apply linm_inv|].
  intros m c Hin. unfold lin_combb in H. rewrite forallb_forall in H. apply (H (m, c)) in Hin.
  eapply linmb_ok; eauto.
Qed.
Lemma lin_comb_box m k p : lin_combb (in_boxb m k) p = true -> lin_comb (in_box m k) p.
Proof. apply lin_combb_ok. apply in_boxb_ok. Qed.

Definition polymb (Vb : list Z -> bool) (m : mono) : bool :=
  forallb (fun v => match v with VQ => true | VS (SP l) => Vb l | _ => false end) m.
Definition poly_inb (Vb : list Z -> bool) (p : poly) : bool := forallb (fun t => polymb Vb (fst t)) p.
Lemma poly_inb_ok Vb (V : list Z -> Prop) p : (forall l, Vb l = true -> V l) -> poly_inb Vb p = true -> poly_in V p.
Proof.
  intros HV H. apply poly_in_iff. apply rawsupp_supp; [apply polym_inv|].
  intros m c Hin. unfold poly_inb in H. rewrite forallb_forall in H. apply (H (m, c)) in Hin.
  unfold polymb in Hin. simpl in Hin. rewrite forallb_forall in Hin. apply Forall_forall. intros v Hv.
  specialize (Hin v Hv). destruct v as [[l|]| | |]; try discriminate; auto. right. exists l. auto.
Qed.
Lemma poly_in_box m k p : poly_inb (in_boxb m k) p = true -> poly_in (in_box m k) p.
Proof. apply poly_inb_ok. apply in_boxb_ok. Qed.

(** the integer [z] as a coefficient *)
Definition qz (z : Z) : Qc := Q2Qc (inject_Z z).

Lemma lin_comb0_pS (V : list Z -> Prop) l : V l -> lin_comb0 V (pS l).
Proof. intros Hl m Hm. apply coef_pvar_neq0 in Hm. exists l. auto. Qed.
