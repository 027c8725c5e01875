(** C79: threads that share the memo tables. *)

From Coq Require Import ZArith List Lia Bool QArith Qcanon Arith.
From Verif Require Import Py OrderFacts ModelPart ModelQcalc ModelPoly ModelGr ModelCache CacheFacts ModelThreads ThreadFacts.
Import ListNotations.
Open Scope Z_scope.

Lemma c79_results (A V : Type) (body : A -> comp A V) conv eqb hashb limit :
  (forall a b, eqb a b = true -> a = b) ->
  (forall a, body (conv a) = body a) ->
  (forall a, hashb (conv a) = true) ->
  forall calls sched ts c i l t,
  execution A V body conv eqb hashb limit (fresh A V calls) [] sched ts c ->
  nth_error calls i = Some l -> nth_error ts i = Some t ->
  (exists rest, map fst (t_done A V t) ++ rest = l) /\
  (finished A V t -> map fst (t_done A V t) = l) /\
  forall a r, In (a, r) (t_done A V t) ->
    (run_plain A V body limit a <> Err RecursionError -> r = run_plain A V body limit a) /\
    (r <> Err RecursionError -> exists limit', run_plain A V body limit' a = r).
Proof.
  intros H1 H2 H3 calls sched ts c i l t Hex Hl Ht.
  destruct (exec_ok body conv eqb hashb limit H1 H2 H3 _ _ _ _ Hex) as (_ & _ & H).
  destruct (H i l t Hl Ht) as [(E & Hd & _) _]. split; [eexists; exact E|]. split.
  - intros [E1 E2]. rewrite E1, E2 in E. cbn [cur_list] in E. rewrite !app_nil_r in E. exact E.
  - intros a r Hin. rewrite Forall_forall in Hd. destruct (Hd _ Hin) as [A1 A2]. cbn [fst snd] in *. split; auto.
    intros Hr. apply evals_body_run. auto.
Qed.
Lemma c79_bounded (A V : Type) (body : A -> comp A V) conv eqb hashb limit :
  (forall a b, eqb a b = true -> a = b) ->
  (forall a, body (conv a) = body a) ->
  (forall a, hashb (conv a) = true) ->
  exists bound : list A -> nat, forall calls sched ts c i l t,
  execution A V body conv eqb hashb limit (fresh A V calls) [] sched ts c ->
  nth_error calls i = Some l -> nth_error ts i = Some t ->
  (forall a, In a l -> run_plain A V body limit a <> Err RecursionError) ->
  (count_occ Nat.eq_dec sched i <= bound l)%nat /\
  (finished A V t -> t_done A V t = map (fun a => (a, run_plain A V body limit a)) l) /\
  (~ finished A V t -> forall c', exists t' c'', tstep A V body conv eqb hashb limit t c' t' c'').
Proof.
  intros H1 H2 H3. exists (todo_work body limit). intros calls sched ts c i l t Hex Hl Ht Hcalm.
  destruct (exec_ok body conv eqb hashb limit H1 H2 H3 _ _ _ _ Hex) as (_ & _ & H).
  destruct (H i l t Hl Ht) as [(E & Hd & _) Hw]. split; [specialize (Hw Hcalm); lia|]. split.
  - intros [E1 E2]. rewrite E1, E2 in E. cbn [cur_list] in E. rewrite !app_nil_r in E. subst l.
    clear -Hd Hcalm. induction (t_done A V t) as [|[a r] d IH]; [reflexivity|]. inversion Hd as [|x y [A1 A2] Hd']; subst.
    cbn [map fst snd] in *. rewrite <- A1 by (apply Hcalm; left; auto). f_equal. apply IH; auto. intros b Hb. apply Hcalm. right. auto.
  - intros Hn c'. apply can_step; auto.
Qed.

(** ** the package's functions *)
Lemma bconv_hash a : bargs_hash (bconv a) = true.
Proof. destruct a; [apply gconv_hash|apply pconv_hash]. Qed.
Lemma bargs_eqb_eq a b : bargs_eqb a b = true -> a = b.
Proof.
  destruct a, b; cbn [bargs_eqb]; try discriminate; intros H; f_equal; [apply gargs_eqb_eq|apply pargs_eqb_eq]; auto.
Qed.
Lemma both_body_conv inner n a : both_body inner n (bconv a) = both_body inner n a.
Proof. destruct a as [[[o s] k]|[[[[o p] s] k] n']]; reflexivity. Qed.

Lemma bind_same {A B} (x : res A) (f g : A -> res B) : (forall v, f v = g v) -> bind x f = bind x g.
Proof. intros H. destruct x; cbn [bind]; auto. Qed.

Section Both.
Variables (inner : Z -> Z -> list Z -> Z -> Z -> res poly) (n : Z -> Z).
Notation runb := (run_plain _ _ (both_body inner n)).
Notation giam d o k l := (giambelli_rec_inner d (fun p lam => inner o p lam k (n o)) k l).

Lemma run_pieri d x : (0 < d)%nat -> runb d (inr x) = call_inner inner x.
Proof. destruct d; [lia|]. intros _. cbn [run_plain both_body]. destruct (call_inner inner x); reflexivity. Qed.

Lemma eval_mapply2 (call : bargs -> res poly) f g m next : (forall l, call (f l) = g l) ->
  eval_plain _ _ call (mapply_c f m next) = (x <- mapply (on_part g) m ;; eval_plain _ _ call (next x)).
Proof.
  intros Hg. revert next. induction m as [|v m IH]; intros next; cbn [mapply_c mapply bind]; auto.
  destruct v as [[l|t b]| | |]; cbn [image on_part].
  - cbn [eval_plain]. rewrite Hg. destruct (g l); cbn [bind]; auto. rewrite IH. destruct (mapply (on_part g) m); auto.
  - reflexivity.
  - rewrite IH. cbn [bind]. destruct (mapply (on_part g) m); auto.
  - rewrite IH. cbn [bind]. destruct (mapply (on_part g) m); auto.
  - rewrite IH. cbn [bind]. destruct (mapply (on_part g) m); auto.
Qed.
Lemma eval_tapply2 (call : bargs -> res poly) f g p next : (forall l, call (f l) = g l) ->
  eval_plain _ _ call (tapply_c f p next) = (x <- tapply (on_part g) p ;; eval_plain _ _ call (next x)).
Proof.
  intros Hg. revert next. induction p as [|[m c] p IH]; intros next; cbn [tapply_c tapply bind]; auto.
  rewrite (eval_mapply2 call f g) by auto. destruct (mapply (on_part g) m); cbn [bind]; auto. rewrite IH.
  destruct (tapply (on_part g) p); auto.
Qed.

(** one level of the recursion with any functions in place of the inner calls *)
Definition gstep (pi : Z -> list Z -> res poly) (rc : list Z -> res poly) (k : Z) (lam : list Z) : res poly :=
  match lam with
  | [] => Ok pone
  | p0 :: _ =>
      let lz := last lam 1 =? 0 in
      let p := if (p0 =? k) && lz then - k else p0 in
      lam0 <- (if (lz : bool) then
                 x1 <- py_get lam 1 ;;
                 Ok (if x1 <? k then sl lam 1 (-1) else sl_from lam 1)
               else Ok (sl_from lam 1)) ;;
      y <- pi p lam0 ;;
      s <- symbol (SP lam) ;;
      a <- rc lam0 ;;
      b <- apply_lc (on_part rc) (psub y s) ;;
      sp <- symbol (SP (num2spec p)) ;;
      Ok (psub (pmul sp a) b)
  end.
Lemma giam_gstep d o k l : giam (S d) o k l = gstep (fun p lam => inner o p lam k (n o)) (giambelli_rec_inner d (fun p lam => inner o p lam k (n o)) k) k l.
Proof. reflexivity. Qed.
Lemma runb_gstep d o s k :
  runb (S d) (inl (o, s, k)) =
  gstep (fun p lam => runb d (inr (o, p, SList lam, k, n o))) (fun lam => runb d (inl (o, SList lam, k))) k (as_list s).
Proof.
  cbn [run_plain both_body]. destruct (as_list s) as [|p0 t0]; [reflexivity|]. unfold gstep. cbn zeta. unfold gargs, pargs in *.
  destruct (if last (p0 :: t0) 1 =? 0 then _ else _) as [lam0|e]; cbn [bind eval_plain]; auto.
  apply bind_same. intros y. destruct (symbol (SP (p0 :: t0))) as [sy|e]; cbn [lift bind eval_plain]; auto.
  apply bind_same. intros a.
  etransitivity; [apply (eval_tapply2 (runb d) (fun l => inl (o, SList l, k)) (fun lam => runb d (inl (o, SList lam, k)))); reflexivity|].
  apply bind_same. intros b. destruct (symbol (SP (num2spec _))) as [sp|e]; reflexivity.
Qed.

(** results other than RecursionError do not change when the inner calls get
    more depth *)
Definition leq (f g : list Z -> res poly) : Prop := forall l, f l <> Err RecursionError -> g l = f l.
Lemma mapply_leq f g m : leq f g -> mapply (on_part f) m <> Err RecursionError -> mapply (on_part g) m = mapply (on_part f) m.
Proof.
  intros H. induction m as [|v m IH]; cbn [mapply]; auto.
  assert (Hv : image (on_part f) v <> Err RecursionError -> image (on_part g) v = image (on_part f) v).
  { destruct v as [[l|t b]| | |]; cbn [image on_part]; auto. }
  destruct (image (on_part f) v) as [x|e] eqn:E; cbn [bind]; intros Hr.
  - rewrite Hv by discriminate. cbn [bind]. destruct (mapply (on_part f) m) as [y|e'] eqn:Em; cbn [bind] in *.
    + rewrite IH by discriminate. reflexivity.
    + rewrite IH by congruence. reflexivity.
  - rewrite Hv by congruence. reflexivity.
Qed.
Lemma tapply_leq f g p : leq f g -> tapply (on_part f) p <> Err RecursionError -> tapply (on_part g) p = tapply (on_part f) p.
Proof.
  intros H. induction p as [|[m c] p IH]; cbn [tapply]; auto.
  destruct (mapply (on_part f) m) as [x|e] eqn:E; cbn [bind]; intros Hr.
  - rewrite (mapply_leq f g) by (rewrite ?E; auto; discriminate). rewrite E. cbn [bind].
    destruct (tapply (on_part f) p) as [y|e'] eqn:Em; cbn [bind] in *.
    + rewrite IH by discriminate. reflexivity.
    + rewrite IH by congruence. reflexivity.
  - rewrite (mapply_leq f g) by (rewrite ?E; auto). rewrite E. reflexivity.
Qed.
Lemma gstep_leq pi pi' f g k l : (forall p, leq (pi p) (pi' p)) -> leq f g ->
  gstep pi f k l <> Err RecursionError -> gstep pi' g k l = gstep pi f k l.
Proof.
  intros Hp H. unfold gstep. destruct l as [|p0 t0]; auto. cbn zeta.
  destruct (if last (p0 :: t0) 1 =? 0 then _ else _) as [lam0|e]; cbn [bind]; auto.
  destruct (pi _ lam0) as [y|e] eqn:Ep; cbn [bind].
  2: { intros Hr. rewrite Hp by (rewrite Ep; auto). rewrite Ep. reflexivity. }
  rewrite Hp by (rewrite Ep; discriminate). rewrite Ep. cbn [bind].
  destruct (symbol (SP (p0 :: t0))) as [sy|e]; cbn [bind]; auto.
  destruct (f lam0) as [a|e] eqn:Ef; cbn [bind].
  2: { intros Hr. rewrite H by (rewrite Ef; auto). rewrite Ef. reflexivity. }
  rewrite H by (rewrite Ef; discriminate). rewrite Ef. cbn [bind].
  unfold apply_lc. destruct (tapply (on_part f) _) as [b|e] eqn:Et; cbn [bind].
  - rewrite (tapply_leq f g) by (rewrite ?Et; auto; discriminate). rewrite Et. auto.
  - intros Hr. rewrite (tapply_leq f g) by (rewrite ?Et; auto). rewrite Et. reflexivity.
Qed.

Lemma runb_giam d : forall o s k, runb d (inl (o, s, k)) <> Err RecursionError ->
  giam d o k (as_list s) = runb d (inl (o, s, k)).
Proof.
  induction d as [|d IH]; intros o s k; [cbn [run_plain]; intros H; congruence|]. rewrite runb_gstep, giam_gstep. apply gstep_leq.
  - intros p l H. destruct d as [|d]; [cbn [run_plain] in H; congruence|]. symmetry. apply (run_pieri (S d) (o, p, SList l, k, n o)). lia.
  - intros l H. apply (IH o (SList l) k H).
Qed.
Lemma giam_runb d : forall o s k, giam d o k (as_list s) <> Err RecursionError ->
  runb (S d) (inl (o, s, k)) = giam d o k (as_list s).
Proof.
  induction d as [|d IH]; intros o s k; [cbn [giambelli_rec_inner]; intros H; congruence|]. rewrite runb_gstep, giam_gstep. apply gstep_leq.
  - intros p l H. apply (run_pieri (S d) (o, p, SList l, k, n o)). lia.
  - intros l H. apply (IH o (SList l) k H).
Qed.
End Both.

Lemma c79_giambelli (inner : Z -> Z -> list Z -> Z -> Z -> res poly) (n : Z -> Z) depth calls sched ts c i t o s k r :
  execution _ _ (both_body inner n) bconv bargs_eqb bargs_hash (S depth) (fresh _ _ calls) [] sched ts c ->
  nth_error ts i = Some t -> In (inl (o, s, k), r) (t_done _ _ t) ->
  (giambelli_rec_inner depth (fun p lam => inner o p lam k (n o)) k (as_list s) <> Err RecursionError ->
   r = giambelli_rec_inner depth (fun p lam => inner o p lam k (n o)) k (as_list s)) /\
  (r <> Err RecursionError ->
   exists depth', giambelli_rec_inner depth' (fun p lam => inner o p lam k (n o)) k (as_list s) = r).
Proof.
  intros Hex Ht Hin.
  destruct (exec_ok (both_body inner n) bconv bargs_eqb bargs_hash (S depth) bargs_eqb_eq (both_body_conv inner n) bconv_hash _ _ _ _ Hex) as (_ & HL & _).
  destruct (nth_error calls i) as [l|] eqn:El.
  2: { apply nth_error_None in El. assert (nth_error ts i = None) by (apply nth_error_None; lia). congruence. }
  destruct (c79_results _ _ (both_body inner n) bconv bargs_eqb bargs_hash (S depth) bargs_eqb_eq (both_body_conv inner n) bconv_hash _ _ _ _ _ _ _ Hex El Ht) as (_ & _ & H).
  destruct (H _ _ Hin) as [A1 A2]. split.
  - intros Hr. rewrite (giam_runb inner n depth o s k Hr) in A1. auto.
  - intros Hr. destruct (A2 Hr) as [d E]. exists d. rewrite (runb_giam inner n d o s k); auto. rewrite E. auto.
Qed.
Lemma c79_pieri (inner : Z -> Z -> list Z -> Z -> Z -> res poly) (n : Z -> Z) depth calls sched ts c i t o p s k m r :
  execution _ _ (both_body inner n) bconv bargs_eqb bargs_hash (S depth) (fresh _ _ calls) [] sched ts c ->
  nth_error ts i = Some t -> In (inr (o, p, s, k, m), r) (t_done _ _ t) ->
  inner o p (as_list s) k m <> Err RecursionError ->
  r = inner o p (as_list s) k m.
Proof.
  intros Hex Ht Hin Hn.
  destruct (exec_ok (both_body inner n) bconv bargs_eqb bargs_hash (S depth) bargs_eqb_eq (both_body_conv inner n) bconv_hash _ _ _ _ Hex) as (_ & HL & _).
  destruct (nth_error calls i) as [l|] eqn:El.
  2: { apply nth_error_None in El. assert (nth_error ts i = None) by (apply nth_error_None; lia). congruence. }
  destruct (c79_results _ _ (both_body inner n) bconv bargs_eqb bargs_hash (S depth) bargs_eqb_eq (both_body_conv inner n) bconv_hash _ _ _ _ _ _ _ Hex El Ht) as (_ & _ & H).
  destruct (H _ _ Hin) as [A1 _].
  pose proof (run_pieri inner n (S depth) (o, p, s, k, m) ltac:(lia)) as E.
  etransitivity; [apply A1|exact E]. intros HH. apply Hn. rewrite <- HH. symmetry. exact E.
Qed.
