(** The cache is transparent. *)

From Coq Require Import ZArith List Lia Bool QArith Qcanon.
From Verif Require Import Py OrderFacts ModelPart ModelQcalc ModelPoly ModelGr ModelCache.
Import ListNotations.
Open Scope Z_scope.

Section Cache.
Context {A V : Type} (body : A -> comp A V) (conv : A -> A) (eqb : A -> A -> bool) (hashb : A -> bool)
  (evict : list (A * V) -> list (A * V)).
Hypothesis Heqb : forall a b, eqb a b = true -> a = b.
Hypothesis Hconv : forall a, body (conv a) = body a.
Hypothesis Hhash : forall a, hashb (conv a) = true.
Hypothesis Hev : forall c x, In x (evict c) -> In x c.
Notation run0 := (run_plain A V body).
Notation run1 := (run_cached A V body conv eqb hashb evict).

Lemma run0_mono f a : run0 f a <> Err RecursionError -> forall g, (f <= g)%nat -> run0 g a = run0 f a.
Proof.
  revert a. induction f as [|f IH]; intros a H g Hg; [exfalso; apply H; reflexivity|].
  destruct g as [|g]; [lia|]. cbn [run_plain] in *. revert H. generalize (body a). intros c.
  induction c as [v|e|b next IHc]; cbn [eval_plain]; intros H; auto.
  destruct (run0 f b) as [x|e] eqn:E; cbn [bind] in *.
  - rewrite IH by (rewrite ?E; congruence || lia). rewrite E. cbn [bind]. apply IHc; auto.
  - rewrite IH by (rewrite ?E; congruence || lia). rewrite E. reflexivity.
Qed.
Lemma run0_det f g a : run0 f a <> Err RecursionError -> run0 g a <> Err RecursionError -> run0 f a = run0 g a.
Proof.
  intros Hf Hg. destruct (Nat.le_ge_cases f g).
  - symmetry. apply run0_mono; auto.
  - apply run0_mono; auto.
Qed.
Lemma run0_conv f a : run0 f (conv a) = run0 f a.
Proof. destruct f; cbn [run_plain]; auto. rewrite Hconv. auto. Qed.

Definition good (st : list (A * V)) : Prop := forall a v, In (a, v) st -> exists f, run0 f a = Ok v.
Lemma lookup_in a st v : lookup A V eqb a st = Some v -> In (a, v) st.
Proof.
  induction st as [|[b w] st IH]; cbn [lookup]; [discriminate|]. destruct (eqb a b) eqn:E.
  - intros H. inversion H; subst. apply Heqb in E. subst. left. auto.
  - intros H. right. auto.
Qed.
Lemma good_evict st : good st -> good (evict st).
Proof. intros H a v Hin. apply H. auto. Qed.

(** soundness: the cached function returns only what the plain function returns *)
Lemma cached_sound f : forall a st, good st ->
  good (snd (run1 f a st)) /\
  forall r, fst (run1 f a st) = r -> r <> Err RecursionError -> exists g, run0 g a = r.
Proof.
  induction f as [|f IH]; intros a st Hst; cbn [run_cached].
  - split; auto. intros r <- H. cbn in H. congruence.
  - rewrite Hhash. destruct (lookup A V eqb (conv a) st) as [v|] eqn:EL.
    + cbn [fst snd]. split; [apply good_evict; auto|]. intros r <- _. apply lookup_in in EL. destruct (Hst _ _ EL) as [g E].
      exists g. rewrite <- run0_conv. auto.
    + assert (G : forall c st, good st ->
        good (snd (eval_cached A V (run1 f) c st)) /\
        forall r, fst (eval_cached A V (run1 f) c st) = r -> r <> Err RecursionError ->
          exists g, forall h, (g <= h)%nat -> eval_plain A V (run0 h) c = r).
      { clear a st Hst EL. intros c. induction c as [v|e|b next IHc]; intros st Hst; cbn [eval_cached eval_plain].
        - split; auto. cbn [fst]. intros r <- _. exists O. auto.
        - split; auto. cbn [fst]. intros r <- _. exists O. auto.
        - destruct (IH b st Hst) as [H1 H2]. destruct (run1 f b st) as [[x|e] st']; cbn [fst snd] in *.
          + destruct (H2 (Ok x) eq_refl ltac:(discriminate)) as [g Eg]. destruct (IHc x st' H1) as [H3 H4]. split; auto.
            intros r Er Hr. destruct (H4 r Er Hr) as [g' Eg']. exists (Nat.max g g'). intros h Hh.
            rewrite (run0_mono g b) by (rewrite ?Eg; congruence || lia). rewrite Eg. cbn [bind]. apply Eg'. lia.
          + split; auto. intros r <- Hr. destruct (H2 (Err e) eq_refl Hr) as [g Eg]. exists g. intros h Hh.
            rewrite (run0_mono g b) by (rewrite ?Eg; congruence || lia). rewrite Eg. reflexivity. }
      destruct (G (body (conv a)) st Hst) as [H1 H2]. rewrite Hconv in *.
      destruct (eval_cached A V (run1 f) (body a) st) as [[v|e] st']; cbn [fst snd] in *.
      * destruct (H2 (Ok v) eq_refl ltac:(discriminate)) as [g Eg].
        assert (E0 : run0 (S g) a = Ok v) by (cbn [run_plain]; apply Eg; lia).
        split; [|intros r <- _; eauto]. apply good_evict. intros b w [E|Hin]; [inversion E; subst|auto].
        exists (S g). rewrite run0_conv. auto.
      * split; auto. intros r <- Hr. destruct (H2 (Err e) eq_refl Hr) as [g Eg]. exists (S g). cbn [run_plain]. apply Eg. lia.
Qed.

(** completeness: if the plain function stays within the recursion limit, so
    does the cached one, with the same result *)
Lemma cached_complete f : forall a st, good st -> run0 f a <> Err RecursionError ->
  fst (run1 f a st) = run0 f a /\ good (snd (run1 f a st)).
Proof.
  induction f as [|f IH]; intros a st Hst Hr; [exfalso; apply Hr; reflexivity|].
  split; [|apply (cached_sound (S f) a st Hst)]. cbn [run_cached]. rewrite Hhash.
  destruct (lookup A V eqb (conv a) st) as [v|] eqn:EL.
  - cbn [fst]. apply lookup_in in EL. destruct (Hst _ _ EL) as [g E]. rewrite run0_conv in E. rewrite <- E.
    apply run0_det; auto. rewrite E. discriminate.
  - rewrite Hconv.
    assert (G : forall c st, good st -> eval_plain A V (run0 f) c <> Err RecursionError ->
      fst (eval_cached A V (run1 f) c st) = eval_plain A V (run0 f) c).
    { clear a st Hst EL Hr. intros c. induction c as [v|e|b next IHc]; intros st Hst Hr; cbn [eval_cached eval_plain] in *; auto.
      destruct (run0 f b) as [x|e] eqn:E; cbn [bind] in *.
      - destruct (IH b st Hst) as [H1 H2]; [rewrite E; discriminate|]. rewrite E in H1.
        destruct (run1 f b st) as [r st']; cbn [fst snd] in *. subst r. apply IHc; auto.
      - destruct (IH b st Hst) as [H1 H2]; [rewrite E; congruence|]. rewrite E in H1.
        destruct (run1 f b st) as [r st']; cbn [fst snd] in *. subst r. reflexivity. }
    cbn [run_plain] in *. rewrite <- (G (body a) st Hst Hr).
    destruct (eval_cached A V (run1 f) (body a) st) as [[v|e] st']; reflexivity.
Qed.

Lemma history_good f calls : forall st, good st ->
  length (history A V body conv eqb hashb evict f calls st) = length calls /\
  forall i a r, nth_error calls i = Some a -> nth_error (history A V body conv eqb hashb evict f calls st) i = Some r ->
    (run0 f a <> Err RecursionError -> r = run0 f a) /\
    (r <> Err RecursionError -> exists g, run0 g a = r).
Proof.
  induction calls as [|a calls IH]; intros st Hst; cbn [history].
  - split; auto. intros [|i] b r E; discriminate.
  - pose proof (cached_sound f a st Hst) as [H1 H2]. pose proof (cached_complete f a st Hst) as H3.
    destruct (run1 f a st) as [r0 st'] eqn:Er; cbn [fst snd] in *. destruct (IH st' H1) as [L IHc]. split; [cbn [length]; auto|].
    intros [|i] b r E Eh; cbn [nth_error] in *; [|eapply IHc; eauto].
    inversion E; inversion Eh; subst. split; [intros H; apply H3; auto|intros H; apply H2; auto].
Qed.
End Cache.

(** ** giambelli *)
Lemma seq_eqb_eq a b : seq_eqb a b = true -> a = b.
Proof. destruct a, b; cbn [seq_eqb]; try discriminate; intros H; apply zlist_eqb_eq in H; congruence. Qed.
Lemma gargs_eqb_eq a b : gargs_eqb a b = true -> a = b.
Proof.
  destruct a as [[o s] k], b as [[o' s'] k']. cbn [gargs_eqb]. rewrite !andb_true_iff, !Z.eqb_eq. intros [[-> H] ->].
  apply seq_eqb_eq in H. congruence.
Qed.
Lemma gconv_hash a : gargs_hash (gconv a) = true.
Proof. destruct a as [[o s] k]. reflexivity. Qed.
Lemma pconv_hash a : pargs_hash (pconv a) = true.
Proof. destruct a as [[[[o p] s] k] n]. reflexivity. Qed.
Lemma giam_body_conv pi a : giam_body pi (gconv a) = giam_body pi a.
Proof. destruct a as [[o s] k]. reflexivity. Qed.

Lemma eval_mapply (call : gargs -> res poly) f g m next :
  (forall l, call (f l) = g l) ->
  eval_plain _ _ call (mapply_c f m next) = (x <- mapply (on_part g) m ;; eval_plain _ _ call (next x)).
Proof.
  intros Hg. revert next. induction m as [|v m IH]; intros next; cbn [mapply_c mapply bind]; auto.
  destruct v as [[l|t b]| | |]; cbn [image on_part].
  - cbn [eval_plain]. rewrite Hg. destruct (g l); cbn [bind]; auto. rewrite IH. destruct (mapply (on_part g) m); auto.
  - reflexivity.
  - rewrite IH. cbn [bind]. destruct (mapply (on_part g) m); auto.
  - rewrite IH. cbn [bind]. destruct (mapply (on_part g) m); auto.
  - rewrite IH. cbn [bind]. destruct (mapply (on_part g) m); auto.
Qed.
Lemma eval_tapply (call : gargs -> res poly) f g p next :
  (forall l, call (f l) = g l) ->
  eval_plain _ _ call (tapply_c f p next) = (x <- tapply (on_part g) p ;; eval_plain _ _ call (next x)).
Proof.
  intros Hg. revert next. induction p as [|[m c] p IH]; intros next; cbn [tapply_c tapply bind]; auto.
  rewrite (eval_mapply call f g) by auto. destruct (mapply (on_part g) m); cbn [bind]; auto. rewrite IH.
  destruct (tapply (on_part g) p); auto.
Qed.
Lemma run_giam (pi : Z -> Z -> list Z -> res poly) f : forall o s k,
  run_plain _ _ (giam_body pi) f (o, s, k) = giambelli_rec_inner f (pi o) k (as_list s).
Proof.
  induction f as [|f IH]; intros o s k; cbn [run_plain giambelli_rec_inner]; auto.
  unfold giam_body. destruct (as_list s) as [|p0 t0]; [reflexivity|]. cbn zeta.
  destruct (if last (p0 :: t0) 1 =? 0 then _ else _) as [lam0|e]; cbn [bind eval_plain]; auto.
  destruct (pi o _ lam0) as [y|e]; cbn [lift bind eval_plain]; auto.
  destruct (symbol (SP (p0 :: t0))) as [sy|e]; cbn [lift bind eval_plain]; auto.
  rewrite IH. cbn [as_list]. destruct (giambelli_rec_inner f (pi o) k lam0) as [a|e]; cbn [bind]; auto.
  rewrite (eval_tapply _ _ (giambelli_rec_inner f (pi o) k)) by (intros; rewrite IH; reflexivity).
  unfold apply_lc. destruct (tapply _ _) as [b|e]; cbn [bind]; auto.
  destruct (symbol (SP (num2spec _))) as [sp|e]; reflexivity.
Qed.

Lemma pargs_eqb_eq a b : pargs_eqb a b = true -> a = b.
Proof.
  destruct a as [[[[o p] s] k] n], b as [[[[o' p'] s'] k'] n']. cbn [pargs_eqb].
  rewrite !andb_true_iff, !Z.eqb_eq. intros [[[[-> ->] H] ->] ->]. apply seq_eqb_eq in H. congruence.
Qed.

(** ** functions that call no decorated function *)
Lemma flat_history (f : pargs -> res poly) fuel calls :
  (forall a, f (pconv a) = f a) ->
  history _ _ (flat_body f) pconv pargs_eqb pargs_hash (fun c => c) (S fuel) calls [] = map f calls.
Proof.
  intros Hf. assert (HG : forall st, good (flat_body f) st -> history _ _ (flat_body f) pconv pargs_eqb pargs_hash (fun c => c) (S fuel) calls st = map f calls).
  { induction calls as [|a calls IH]; intros st Hst; cbn [history map]; auto.
    assert (E : run_plain _ _ (flat_body f) (S fuel) a = f a).
    { cbn [run_plain]. unfold flat_body. destruct (f a); reflexivity. }
    assert (Hb : forall a, flat_body f (pconv a) = flat_body f a) by (intros; unfold flat_body; rewrite Hf; auto).
    pose proof (cached_sound (flat_body f) pconv pargs_eqb pargs_hash (fun c => c) pargs_eqb_eq Hb pconv_hash (fun c x H => H) (S fuel) a st Hst) as [H1 H2].
    assert (E1 : fst (run_cached _ _ (flat_body f) pconv pargs_eqb pargs_hash (fun c => c) (S fuel) a st) = f a).
    { cbn [run_cached]. rewrite pconv_hash. destruct (lookup _ _ pargs_eqb (pconv a) st) as [v|] eqn:EL.
      - cbn [fst]. apply (lookup_in pargs_eqb pargs_eqb_eq) in EL. destruct (Hst _ _ EL) as [g Eg].
        destruct g as [|g]; [discriminate|]. cbn [run_plain] in Eg. unfold flat_body in Eg. rewrite Hf in Eg.
        destruct (f a); cbn [eval_plain] in Eg; congruence.
      - rewrite Hb. unfold flat_body at 2. destruct (f a); reflexivity. }
    destruct (run_cached _ _ _ _ _ _ _ _ _) as [r st']; cbn [fst snd] in *. rewrite E1, IH; auto. }
  apply HG. intros a v [].
Qed.

(** ** the statements *)
Lemma history_transparent (A V : Type) (body : A -> comp A V) conv eqb hashb evict :
  (forall a b, eqb a b = true -> a = b) ->
  (forall a, body (conv a) = body a) ->
  (forall a, hashb (conv a) = true) ->
  (forall c x, In x (evict c) -> In x c) ->
  forall depth calls,
  List.length (history A V body conv eqb hashb evict depth calls []) = List.length calls /\
  forall i a r, nth_error calls i = Some a ->
    nth_error (history A V body conv eqb hashb evict depth calls []) i = Some r ->
    (run_plain A V body depth a <> Err RecursionError -> r = run_plain A V body depth a) /\
    (r <> Err RecursionError -> exists depth', run_plain A V body depth' a = r).
Proof. intros H1 H2 H3 H4 depth calls. apply history_good; auto. intros a v []. Qed.
Lemma history_giam (pi : Z -> Z -> list Z -> res poly) depth calls i o s k r :
  nth_error calls i = Some (o, s, k) ->
  nth_error (history _ _ (giam_body pi) gconv gargs_eqb gargs_hash (fun c => c) depth calls []) i = Some r ->
  (giambelli_rec_inner depth (pi o) k (as_list s) <> Err RecursionError ->
   r = giambelli_rec_inner depth (pi o) k (as_list s)) /\
  (r <> Err RecursionError ->
   exists depth', giambelli_rec_inner depth' (pi o) k (as_list s) = r).
Proof.
  intros H1 H2. destruct (history_transparent _ _ (giam_body pi) gconv gargs_eqb gargs_hash (fun c => c) gargs_eqb_eq (giam_body_conv pi) gconv_hash (fun c x H => H) depth calls) as [_ H].
  destruct (H i _ r H1 H2) as [A B]. rewrite run_giam in A. split; auto.
  intros Hr. destruct (B Hr) as [d E]. exists d. rewrite <- run_giam. auto.
Qed.
Lemma history_pieri (inner : Z -> Z -> list Z -> Z -> Z -> res poly) depth calls :
  history _ _ (flat_body (call_inner inner)) pconv pargs_eqb pargs_hash (fun c => c) (S depth) calls [] =
  map (fun '(o, p, s, k, n) => inner o p (as_list s) k n) calls.
Proof. apply flat_history. intros [[[[o p] s] k] n]. reflexivity. Qed.
