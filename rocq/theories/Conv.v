(** Renaming classes in an expression: what part2index, index2part, dualize,
    part2pair, pair2part, type_swap and miami_swap do. *)

From Coq Require Import ZArith List Lia Bool Permutation QArith Qcanon Setoid Morphisms.
From Verif Require Import Py OrderFacts ModelPart ModelQcalc ModelPoly ModelStr ModelGr Spec
  PolyFacts SuppFacts.
Import ListNotations.
Open Scope Z_scope.

Definition evm (V : schur -> Prop) : mono -> Prop :=
  Forall (fun v => match v with VS s => V s | _ => True end).
Lemma evm_inv V : minv (evm V).
Proof. intros a b HP. unfold evm. rewrite !Forall_forall. intros H v Hv. apply H. apply (Permutation_in v (Permutation_sym HP)). auto. Qed.

Lemma expr_in_iff V p : expr_in V p <-> supp (evm V) p.
Proof. reflexivity. Qed.

(** replace each class by another one *)
Definition ren (h : schur -> schur) (v : var) : poly :=
  match v with VS s => pvar (VS (h s)) | _ => pvar v end.

Lemma conv_ok (f : schur -> res poly) (h : schur -> schur) (V W : schur -> Prop) p :
  (forall s, V s -> f s = Ok (pvar (VS (h s))) /\ W (h s)) ->
  expr_in V p ->
  exists r, apply_lc f p = Ok r /\ peq r (psubst (ren h) p) /\ expr_in W r.
Proof.
  intros Hf Hp. apply expr_in_iff in Hp.
  destruct (apply_lc_ok f (ren h) p) as (r & E & Er).
  { intros m c v Hin Hv. apply supp_rawnorm in Hp. specialize (Hp m c Hin).
    unfold evm in Hp. rewrite Forall_forall in Hp. specialize (Hp v Hv).
    destruct v as [s| | |]; [|eexists; split; reflexivity ..].
    exists (pvar (VS (h s))). split; [apply Hf; auto|reflexivity]. }
  exists r. split; auto. split; auto. apply expr_in_iff.
  eapply supp_peq; [symmetry; exact Er|].
  eapply supp_psubst; [apply evm_inv| |exact Hp].
  intros m. induction m as [|v m IH]; intros Hm.
  - apply (supp_pmono (evm W) []); [apply evm_inv|constructor].
  - inversion Hm; subst. change (msubst (ren h) (v :: m)) with (pmul (ren h v) (msubst (ren h) m)).
    eapply (supp_pmul (evm W) (evm W)); [apply evm_inv| | |apply IH; auto].
    + intros a b Ha Hb. apply Forall_app; auto.
    + destruct v as [s| | |]; apply supp_pvar; try apply evm_inv; repeat constructor. apply Hf; auto.
Qed.

Lemma ren_comp h h' p : peq (psubst (ren h') (psubst (ren h) p)) (psubst (ren (fun s => h' (h s))) p).
Proof.
  rewrite psubst_comp. apply psubst_ext. intros m c v _ _. destruct v; cbn [ren]; rewrite psubst_pvar; reflexivity.
Qed.

Lemma ren_ext (V : schur -> Prop) h h' p : (forall s, V s -> h s = h' s) -> expr_in V p ->
  peq (psubst (ren h) p) (psubst (ren h') p).
Proof.
  intros H Hp. transitivity (psubst (ren h) (pnorm p)); [rewrite pnorm_peq; reflexivity|].
  transitivity (psubst (ren h') (pnorm p)); [|rewrite pnorm_peq; reflexivity].
  apply psubst_ext. intros m c v Hin Hv. apply expr_in_iff, supp_rawnorm in Hp. specialize (Hp m c Hin).
  unfold evm in Hp. rewrite Forall_forall in Hp. specialize (Hp v Hv).
  destruct v; simpl; try reflexivity. rewrite H by auto. reflexivity.
Qed.

Lemma msubst_pvar m : peq (msubst pvar m) (pmono m).
Proof.
  induction m as [|v m IH]; [reflexivity|].
  change (msubst pvar (v :: m)) with (pmul (pvar v) (msubst pvar m)). rewrite IH.
  change (v :: m) with ([v] ++ m). rewrite pmono_app. reflexivity.
Qed.
Lemma psubst_pvar_id p : peq (psubst pvar p) p.
Proof.
  induction p as [|[m c] t IH]; [reflexivity|].
  change (psubst pvar ((m, c) :: t)) with (padd (pscale c (msubst pvar m)) (psubst pvar t)).
  rewrite IH, msubst_pvar, <- poly_cons. reflexivity.
Qed.

Lemma ren_id (V : schur -> Prop) h p : (forall s, V s -> h s = s) -> expr_in V p ->
  peq (psubst (ren h) p) p.
Proof.
  intros H Hp. rewrite (ren_ext V h (fun s => s) p H Hp).
  rewrite <- (psubst_pvar_id p) at 2. apply psubst_ext. intros m c v _ _. destruct v; reflexivity.
Qed.

(** Two conversions that undo each other on classes undo each other on
    expressions. *)
Lemma conv_inverse (f f' : schur -> res poly) (h h' : schur -> schur) (V W : schur -> Prop) p :
  (forall s, V s -> f s = Ok (pvar (VS (h s))) /\ W (h s)) ->
  (forall s, W s -> f' s = Ok (pvar (VS (h' s))) /\ V (h' s)) ->
  (forall s, V s -> h' (h s) = s) ->
  expr_in V p ->
  exists x r, apply_lc f p = Ok x /\ expr_in W x /\ apply_lc f' x = Ok r /\ expr_in V r /\ peq r p.
Proof.
  intros H1 H2 H3 Hp.
  destruct (conv_ok f h V W p H1 Hp) as (x & E1 & P1 & W1).
  destruct (conv_ok f' h' W V x H2 W1) as (r & E2 & P2 & W2).
  exists x, r. split; auto. split; auto. split; auto. split; auto.
  rewrite P2, P1, ren_comp. apply (ren_id V); auto.
Qed.

Lemma expr_in_pS (V : schur -> Prop) s : V s -> expr_in V (pvar (VS s)).
Proof. intros H. apply expr_in_iff. apply supp_pvar; [apply evm_inv|]. repeat constructor; auto. Qed.
Lemma expr_in_peq V p r : peq p r -> expr_in V p -> expr_in V r.
Proof. apply supp_peq. Qed.
Lemma expr_in_impl (V W : schur -> Prop) p : (forall s, V s -> W s) -> expr_in V p -> expr_in W p.
Proof.
  intros H. apply supp_impl. intros m. apply Forall_impl. intros v. destruct v; auto.
Qed.

(** functions on lists *)
Definition hl (h : list Z -> list Z) (s : schur) : schur :=
  match s with SP l => SP (h l) | _ => s end.
Definition nonneg (l : list Z) : Prop := Forall (fun x => 0 <= x) l.
Lemma ret_nonneg l : nonneg l -> ret_schur (SP l) = Ok (pS l).
Proof.
  intros H. unfold ret_schur, symbol, schur_nonneg.
  rewrite (proj2 (forallb_forall _ _)); auto. intros x Hx. apply Z.leb_le.
  unfold nonneg in H. rewrite Forall_forall in H. auto.
Qed.

(** the hypothesis of [conv_ok] for the functions of the library *)
Lemma on_part_conv (f : list Z -> res (list Z)) (h : list Z -> list Z) (V W : list Z -> Prop) :
  (forall l, V l -> f l = Ok (h l) /\ W (h l)) -> (forall l, W l -> nonneg l) ->
  forall s, on_list V s ->
    on_part (fun lam => a <- f lam ;; ret_schur (SP a)) s = Ok (pvar (VS (hl h s))) /\ on_list W (hl h s).
Proof.
  intros Hf Hn [l|] Hs; [|contradiction]. simpl in *. destruct (Hf l Hs) as [E HW]. rewrite E. cbn [bind].
  rewrite ret_nonneg by auto. auto.
Qed.
Lemma on_part_conv_pure (h : list Z -> list Z) (V W : list Z -> Prop) :
  (forall l, V l -> W (h l)) -> (forall l, W l -> nonneg l) ->
  forall s, on_list V s ->
    on_part (fun lam => ret_schur (SP (h lam))) s = Ok (pvar (VS (hl h s))) /\ on_list W (hl h s).
Proof.
  intros Hf Hn [l|] Hs; [|contradiction]. simpl in *. rewrite ret_nonneg; auto.
Qed.
