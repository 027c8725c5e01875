(** Threads sharing a cache get the results of the plain functions. *)

From Coq Require Import ZArith List Lia Bool QArith Qcanon Arith.
From Verif Require Import Py OrderFacts ModelPart ModelQcalc ModelPoly ModelGr ModelCache CacheFacts ModelThreads.
Import ListNotations.

Lemma nth_upd_same {B} (l : list B) i x y : nth_error l i = Some y -> nth_error (upd l i x) i = Some x.
Proof. revert i. induction l as [|a l IH]; intros [|i]; cbn; try discriminate; auto. Qed.
Lemma nth_upd_other {B} (l : list B) i j x : i <> j -> nth_error (upd l i x) j = nth_error l j.
Proof. revert i j. induction l as [|a l IH]; intros [|i] [|j] H; cbn; auto; try congruence. Qed.

Lemma upd_len {B} (l : list B) j v : length (upd l j v) = length l.
Proof. revert j. induction l as [|a l IH]; intros [|j]; cbn; auto. Qed.

Section Threads.
Context {A V : Type} (body : A -> comp A V) (conv : A -> A) (eqb : A -> A -> bool) (hashb : A -> bool) (limit : nat).
Hypothesis Heqb : forall a b, eqb a b = true -> a = b.
Hypothesis Hconv : forall a, body (conv a) = body a.
Hypothesis Hhash : forall a, hashb (conv a) = true.
Notation run0 := (run_plain A V body).
Notation ev := (eval_plain A V).
Notation rec_err := (Err RecursionError).

(** *** the value of a computation, without a bound on the depth *)
Inductive evals : comp A V -> res V -> Prop :=
| ev_ret v : evals (Ret v) (Ok v)
| ev_raise e : evals (Raise e) (Err e)
| ev_ok a next v r : evals (body a) (Ok v) -> evals (next v) r -> evals (Call a next) r
| ev_err a next e : evals (body a) (Err e) -> evals (Call a next) (Err e).

Lemma evals_run c r : evals c r -> exists g, forall h, (g <= h)%nat -> ev (run0 h) c = r.
Proof.
  induction 1 as [v|e|a next v r _ [g1 E1] _ [g2 E2]|a next e _ [g E]].
  - exists O. reflexivity.
  - exists O. reflexivity.
  - exists (S (Nat.max g1 g2)). intros [|h] Hh; [lia|]. cbn [eval_plain]. change (run0 (S h) a) with (ev (run0 h) (body a)).
    rewrite E1 by lia. cbn [bind]. apply E2. lia.
  - exists (S g). intros [|h] Hh; [lia|]. cbn [eval_plain]. change (run0 (S h) a) with (ev (run0 h) (body a)). rewrite E by lia. reflexivity.
Qed.
Lemma run_evals f : forall a r, run0 f a = r -> r <> rec_err -> evals (body a) r.
Proof.
  induction f as [|f IH]; intros a r E Hr; cbn [run_plain] in E; [congruence|].
  revert E. generalize (body a). intros c. induction c as [v|e|b next IHc]; cbn [eval_plain]; intros E.
  - subst. constructor.
  - subst. constructor.
  - destruct (run0 f b) as [x|e] eqn:Eb; cbn [bind] in E.
    + eapply ev_ok; [apply (IH b); [exact Eb|discriminate]|auto].
    + subst r. apply ev_err. apply (IH b); auto.
Qed.
Lemma evals_body_run a r : evals (body a) r -> exists g, run0 g a = r.
Proof. intros H. destruct (evals_run _ _ H) as [g E]. exists (S g). cbn [run_plain]. apply E. lia. Qed.
Lemma evals_weak_conv a next r : evals (Call (conv a) next) r -> evals (Call a next) r.
Proof.
  intros H. inversion H; subst; rewrite Hconv in *; [eapply ev_ok; eauto|apply ev_err; auto].
Qed.
Lemma evals_call0 a r : evals (Call a (fun v => Ret v)) r -> evals (body a) r.
Proof.
  intros H. inversion H as [| |a' next v r' H1 H2|a' next e H1]; subst; auto. inversion H2; subst. auto.
Qed.

(** *** soundness *)
Definition good_cache (c : cache A V) : Prop := forall a v, In (a, v) c -> evals (body a) (Ok v).
Fixpoint chain (a0 : A) (c : comp A V) (fr : list (A * (V -> comp A V))) : Prop :=
  match fr with
  | [] => forall r, evals c r -> evals (body a0) r
  | (key, next) :: fr' => (forall r, evals c r -> evals (body key) r) /\ chain a0 (Call key next) fr'
  end.
Lemma chain_weak a0 c c' fr : (forall r, evals c' r -> evals c r) -> chain a0 c fr -> chain a0 c' fr.
Proof. destruct fr as [|[key next] fr]; cbn [chain]; intros H; [auto|]. intros [H1 H2]. auto. Qed.
Lemma chain_err a0 e fr : forall c, evals c (Err e) -> chain a0 c fr -> evals (body a0) (Err e).
Proof.
  induction fr as [|[key next] fr IH]; intros c He Hc; cbn [chain] in Hc; auto.
  destruct Hc as [H1 H2]. apply (IH (Call key next)); auto. apply ev_err. auto.
Qed.

(** *** completeness *)
Fixpoint chainL (a0 : A) (c : comp A V) (fr : list (A * (V -> comp A V))) : Prop :=
  match fr with
  | [] => ev (run0 limit) c = run0 limit a0
  | (key, next) :: fr' =>
      (length fr' < limit)%nat /\
      ev (run0 (limit - S (length fr'))) c = run0 (limit - length fr') key /\ chainL a0 (Call key next) fr'
  end.
Lemma chainL_eq a0 c c' fr :
  ev (run0 (limit - length fr)) c' = ev (run0 (limit - length fr)) c -> chainL a0 c fr -> chainL a0 c' fr.
Proof.
  destruct fr as [|[key next] fr]; cbn [chainL length]; [rewrite Nat.sub_0_r|]; intros H; [congruence|].
  intros (H1 & H2 & H3). repeat split; auto. congruence.
Qed.
Lemma chainL_ok a0 fr : run0 limit a0 <> rec_err -> forall c, chainL a0 c fr ->
  ev (run0 (limit - length fr)) c <> rec_err.
Proof.
  intros H0. induction fr as [|[key next] fr IH]; intros c; cbn [chainL length].
  - rewrite Nat.sub_0_r. congruence.
  - intros (H1 & H2 & H3) E. rewrite H2 in E. apply (IH _ H3). cbn [eval_plain]. rewrite E. reflexivity.
Qed.
Lemma chainL_err a0 e fr : forall c, ev (run0 (limit - length fr)) c = Err e -> chainL a0 c fr -> run0 limit a0 = Err e.
Proof.
  induction fr as [|[key next] fr IH]; intros c; cbn [chainL length].
  - rewrite Nat.sub_0_r. congruence.
  - intros E (H1 & H2 & H3). eapply IH; [|exact H3]. cbn [eval_plain]. rewrite <- H2, E. reflexivity.
Qed.

(** *** the invariant *)
Definition entry_ok (x : A * res V) : Prop :=
  (run0 limit (fst x) <> rec_err -> snd x = run0 limit (fst x)) /\
  (snd x <> rec_err -> evals (body (fst x)) (snd x)).
Definition cur_ok (r : running A V) : Prop :=
  chain (r_call _ _ r) (r_comp _ _ r) (r_stack _ _ r) /\
  (run0 limit (r_call _ _ r) <> rec_err -> chainL (r_call _ _ r) (r_comp _ _ r) (r_stack _ _ r)).
Definition cur_list (o : option (running A V)) : list A := match o with Some r => [r_call _ _ r] | None => [] end.
Definition thread_ok (calls : list A) (t : thread A V) : Prop :=
  map fst (t_done _ _ t) ++ cur_list (t_cur _ _ t) ++ t_todo _ _ t = calls /\
  Forall entry_ok (t_done _ _ t) /\
  match t_cur _ _ t with None => True | Some r => cur_ok r end.

Lemma lookup_good a c v : good_cache c -> lookup A V eqb (conv a) c = Some v -> evals (body a) (Ok v).
Proof. intros H E. apply lookup_in in E; auto. apply H in E. rewrite Hconv in E. auto. Qed.

(** *** the number of steps *)
Fixpoint eval_cost (call : A -> res V) (cc : A -> nat) (c : comp A V) : nat :=
  match c with
  | Ret _ => 1
  | Raise _ => 1
  | Call a next => match call a with Ok x => S (cc a + eval_cost call cc (next x)) | Err _ => S (cc a) end
  end.
Fixpoint run_cost (fuel : nat) (a : A) : nat :=
  match fuel with O => 0 | S f => eval_cost (run0 f) (run_cost f) (body a) end.
Notation cost d := (eval_cost (run0 d) (run_cost d)).
Fixpoint work (c : comp A V) (fr : list (A * (V -> comp A V))) : nat :=
  match fr with
  | [] => cost limit c
  | (key, next) :: fr' =>
      cost (limit - S (length fr')) c +
      match ev (run0 (limit - S (length fr'))) c with Ok v => work (next v) fr' | Err _ => 0 end
  end.
Lemma work_ok a next v fr : run0 (limit - length fr) a = Ok v ->
  work (Call a next) fr = S (run_cost (limit - length fr) a + work (next v) fr).
Proof.
  destruct fr as [|[key nx] fr]; cbn [work length eval_cost eval_plain].
  - rewrite Nat.sub_0_r. intros ->. reflexivity.
  - intros ->. cbn [bind]. lia.
Qed.
Lemma work_err a next e fr : run0 (limit - length fr) a = Err e ->
  work (Call a next) fr = S (run_cost (limit - length fr) a).
Proof.
  destruct fr as [|[key nx] fr]; cbn [work length eval_cost eval_plain].
  - rewrite Nat.sub_0_r. intros ->. reflexivity.
  - intros ->. cbn [bind]. lia.
Qed.
Fixpoint todo_work (l : list A) : nat := match l with [] => 0 | a :: t => S (work (Call a (fun v => Ret v)) []) + todo_work t end.
Definition t_work (t : thread A V) : nat :=
  match t_cur _ _ t with None => 0 | Some r => work (r_comp _ _ r) (r_stack _ _ r) end + todo_work (t_todo _ _ t).
Lemma work_pos c fr : (0 < work c fr)%nat.
Proof.
  assert (H : forall d, (0 < cost d c)%nat).
  { intros d. destruct c as [v|e|a next]; cbn [eval_cost]; try lia. destruct (run0 d a); lia. }
  destruct fr as [|[key nx] fr]; cbn [work]; [apply H|]. specialize (H (limit - S (length fr))%nat). lia.
Qed.

Definition calm (calls : list A) : Prop := forall a, In a calls -> run0 limit a <> rec_err.

Lemma step_ok calls t c t' c' : tstep A V body conv eqb hashb limit t c t' c' ->
  good_cache c -> thread_ok calls t ->
  good_cache c' /\ thread_ok calls t' /\ (calm calls -> (t_work t' < t_work t)%nat).
Proof.
  intros Hst Hg (Hc & Hd & Hr).
  destruct Hst as [a todo don c|todo don a0 a next fr v c c' HH EL Hk|todo don a0 a next fr c HH EL Hl|todo don a0 a next fr c HH EL Hl
                  |todo don a0 a next fr c HH|todo don a0 v key next fr c c' Hk|todo don a0 e fr c|todo don a0 v c];
    cbn [t_done t_cur t_todo cur_list r_call r_comp r_stack] in *.
  - (* Start *) split; auto. split.
    + split; [exact Hc|]. split; auto. split; cbn [r_call r_comp r_stack chain chainL].
      * apply evals_call0.
      * intros _. cbn [eval_plain]. destruct (run0 limit a); reflexivity.
    + intros _. unfold t_work. cbn [t_cur t_todo r_comp r_stack todo_work]. lia.
  - (* Hit *)
    assert (Hv : evals (body a) (Ok v)) by (eapply lookup_good; eauto).
    assert (E : run0 limit a0 <> rec_err -> run0 (limit - length fr) a = Ok v).
    { intros Hr0. destruct Hr as [_ H2]. specialize (H2 Hr0). pose proof (chainL_ok a0 fr Hr0 _ H2) as Hn. cbn [r_comp r_stack] in Hn. cbn [eval_plain] in Hn.
      assert (Hn' : run0 (limit - length fr) a <> rec_err).
      { intros E. apply Hn. rewrite E. reflexivity. }
      destruct (evals_body_run _ _ Hv) as [g Eg]. rewrite <- Eg. apply run0_det; auto. rewrite Eg. discriminate. }
    split; [intros b w Hin; apply Hg; apply Hk; auto|]. split.
    + split; [exact Hc|]. split; auto. destruct Hr as [H1 H2]. split; cbn [r_call r_comp r_stack] in *.
      * eapply chain_weak; [|exact H1]. intros r Hr'. eapply ev_ok; eauto.
      * intros Hr0. eapply chainL_eq; [|apply H2; auto]. cbn [eval_plain]. rewrite E by auto. reflexivity.
    + intros Hcalm. unfold t_work. cbn [t_cur t_todo r_comp r_stack].
      assert (Hr0 : run0 limit a0 <> rec_err) by (apply Hcalm; rewrite <- Hc; apply in_or_app; right; left; auto).
      rewrite (work_ok a next v fr (E Hr0)). lia.
  - (* Miss *)
    split; auto. destruct Hr as [H1 H2]. cbn [r_call r_comp r_stack] in *. split.
    + split; [exact Hc|]. split; auto. split; cbn [r_call r_comp r_stack chain chainL].
      * split; auto. eapply chain_weak; [|exact H1]. intros r. apply evals_weak_conv.
      * intros Hr0. split; auto. split.
        -- rewrite run0_conv, Hconv by auto. replace (limit - length fr)%nat with (S (limit - S (length fr))) by lia. reflexivity.
        -- eapply chainL_eq; [|apply H2; auto]. cbn [eval_plain]. rewrite run0_conv by auto. reflexivity.
    + intros Hcalm. unfold t_work. cbn [t_cur t_todo r_comp r_stack]. cbn [work]. rewrite Hconv.
      assert (Hn : (limit - length fr)%nat = S (limit - S (length fr))) by lia.
      assert (E : run0 (limit - length fr) a = ev (run0 (limit - S (length fr))) (body a)) by (rewrite Hn; reflexivity).
      assert (E' : run_cost (limit - length fr) a = cost (limit - S (length fr)) (body a)) by (rewrite Hn; reflexivity).
      destruct (run0 (limit - length fr) a) as [v|e] eqn:Ea; rewrite <- E.
      * rewrite (work_ok a next v fr Ea), E'. lia.
      * rewrite (work_err a next e fr Ea), E'. lia.
  - (* TooDeep *)
    assert (Hx : run0 limit a0 = rec_err \/ run0 limit a0 <> rec_err).
    { destruct (run0 limit a0) as [|[]]; (left; reflexivity) || (right; discriminate). }
    assert (Hno : run0 limit a0 <> rec_err -> False).
    { intros Hr0. destruct Hr as [_ H2]. apply (chainL_ok a0 fr Hr0 _ (H2 Hr0)). cbn [r_comp r_stack eval_plain].
      replace (limit - length fr)%nat with O by lia. reflexivity. }
    split; auto. split.
    + split; cbn [t_done t_cur t_todo cur_list].
      * rewrite map_app, <- app_assoc. exact Hc.
      * split; auto. apply Forall_app. split; auto. constructor; auto. split; cbn [fst snd]; [intros H; destruct (Hno H)|congruence].
    + intros Hcalm. destruct Hno. apply Hcalm. rewrite <- Hc. apply in_or_app; right; left; auto.
  - (* Unhashable *) rewrite Hhash in HH. discriminate.
  - (* Return *)
    destruct Hr as [[H0 H1] H2]. cbn [r_call r_comp r_stack chain chainL] in *.
    assert (Hv : evals (body key) (Ok v)) by (apply H0; constructor).
    split; [intros b w Hin; destruct (Hk _ Hin) as [E|Hin']; [inversion E; subst; auto|apply Hg; auto]|]. split.
    + split; [exact Hc|]. split; auto. split; cbn [r_call r_comp r_stack].
      * eapply chain_weak; [|exact H1]. intros r Hr'. eapply ev_ok; eauto.
      * intros Hr0. destruct (H2 Hr0) as (Hl & E & H3). eapply chainL_eq; [|exact H3]. cbn [eval_plain].
        rewrite <- E. reflexivity.
    + intros _. unfold t_work. cbn [t_cur t_todo r_comp r_stack work eval_cost eval_plain]. lia.
  - (* Failed *)
    destruct Hr as [H1 H2]. cbn [r_call r_comp r_stack] in *. split; auto. split.
    + split; cbn [t_done t_cur t_todo cur_list].
      * rewrite map_app, <- app_assoc. exact Hc.
      * split; auto. apply Forall_app. split; auto. constructor; auto. split; cbn [fst snd].
        -- intros Hr0. symmetry. eapply chainL_err; [|apply H2; auto]. reflexivity.
        -- intros _. eapply chain_err; [|exact H1]. constructor.
    + intros _. unfold t_work. cbn [t_cur t_todo r_comp r_stack]. pose proof (work_pos (Raise e) fr). lia.
  - (* Finished *)
    destruct Hr as [H1 H2]. cbn [r_call r_comp r_stack chain chainL] in *. split; auto. split.
    + split; cbn [t_done t_cur t_todo cur_list].
      * rewrite map_app, <- app_assoc. exact Hc.
      * split; auto. apply Forall_app. split; auto. constructor; auto. split; cbn [fst snd].
        -- intros Hr0. rewrite <- H2 by auto. reflexivity.
        -- intros _. apply H1. constructor.
    + intros _. unfold t_work. cbn [t_cur t_todo r_comp r_stack]. pose proof (work_pos (Ret v) []). lia.
Qed.

Lemma exec_ok calls sched ts c : execution A V body conv eqb hashb limit (fresh A V calls) [] sched ts c ->
  good_cache c /\ length ts = length calls /\
  forall i l t, nth_error calls i = Some l -> nth_error ts i = Some t ->
    thread_ok l t /\ (calm l -> (count_occ Nat.eq_dec sched i + t_work t <= todo_work l)%nat).
Proof.
  remember (fresh A V calls) as ts0 eqn:E0. remember [] as c0 eqn:Ec0.
  induction 1 as [ts c|ts c sched ts' c' i t t' c'' Hex IH Hi Hst]; subst.
  - split; [intros a v []|]. split; [apply map_length|].
    intros i l t Hl Ht. unfold fresh in Ht. rewrite nth_error_map, Hl in Ht. cbn [option_map] in Ht. inversion Ht; subst.
    split; [split; [reflexivity|split; [constructor|exact I]]|]. intros _. cbn. lia.
  - destruct (IH eq_refl eq_refl) as (Hg & Hlen & Hall).
    destruct (nth_error calls i) as [l|] eqn:El.
    2: { apply nth_error_None in El. assert (nth_error ts' i = None) by (apply nth_error_None; lia). congruence. }
    destruct (Hall i l t El Hi) as [Hok Hw].
    destruct (step_ok l t c' t' c'' Hst Hg Hok) as (Hg' & Hok' & Hw').
    split; auto. split; [rewrite upd_len; auto|]. intros j l' u Hl' Hu.
    destruct (Nat.eq_dec i j) as [<-|Hij].
    + rewrite (nth_upd_same _ _ _ _ Hi) in Hu. inversion Hu; subst. rewrite El in Hl'. inversion Hl'; subst.
      split; auto. intros Hcalm. rewrite count_occ_app. cbn [count_occ]. destruct (Nat.eq_dec i i); [|congruence].
      specialize (Hw Hcalm). specialize (Hw' Hcalm). lia.
    + rewrite nth_upd_other in Hu by auto. destruct (Hall j l' u Hl' Hu) as [H1 H2]. split; auto. intros Hcalm.
      rewrite count_occ_app. cbn [count_occ]. destruct (Nat.eq_dec i j); [congruence|]. specialize (H2 Hcalm). lia.
Qed.

Lemma can_step t c : ~ finished A V t -> exists t' c', tstep A V body conv eqb hashb limit t c t' c'.
Proof.
  destruct t as [todo [[a0 [v|e|a next] fr]|] don]; intros H.
  - destruct fr as [|[key next] fr]; eexists; eexists; [apply Finished|apply Return; apply incl_refl].
  - eexists; eexists; apply Failed.
  - destruct (lookup A V eqb (conv a) c) as [v|] eqn:E.
    + eexists; eexists; eapply Hit; [apply Hhash|exact E|apply incl_refl].
    + destruct (le_lt_dec limit (length fr)); eexists; eexists; [eapply TooDeep; eauto|eapply Miss; eauto].
  - destruct todo as [|a todo]; [destruct H; split; reflexivity|]. eexists; eexists; apply Start.
Qed.
End Threads.

(** *** running a given schedule, with a cache that keeps everything *)
Section Drive.
Context {A V : Type} (body : A -> comp A V) (conv : A -> A) (eqb : A -> A -> bool) (hashb : A -> bool) (limit : nat).
Definition drive1 (t : thread A V) (c : cache A V) : option (thread A V * cache A V) :=
  let 'mkThread _ _ todo cur don := t in
  match cur with
  | None => match todo with
            | a :: todo' => Some (mkThread A V todo' (Some (mkRun A V a (Call a (fun v => Ret v)) [])) don, c)
            | [] => None
            end
  | Some (mkRun _ _ a0 (Call a next) fr) =>
      if hashb (conv a) then
        match lookup A V eqb (conv a) c with
        | Some v => Some (mkThread A V todo (Some (mkRun A V a0 (next v) fr)) don, c)
        | None => if (length fr <? limit)%nat
                  then Some (mkThread A V todo (Some (mkRun A V a0 (body (conv a)) ((conv a, next) :: fr))) don, c)
                  else Some (mkThread A V todo None (don ++ [(a0, Err RecursionError)]), c)
        end
      else Some (mkThread A V todo None (don ++ [(a0, Err TypeError)]), c)
  | Some (mkRun _ _ a0 (Ret v) []) => Some (mkThread A V todo None (don ++ [(a0, Ok v)]), c)
  | Some (mkRun _ _ a0 (Ret v) ((key, next) :: fr)) =>
      Some (mkThread A V todo (Some (mkRun A V a0 (next v) fr)) don, (key, v) :: c)
  | Some (mkRun _ _ a0 (Raise e) fr) => Some (mkThread A V todo None (don ++ [(a0, Err e)]), c)
  end.
Lemma drive1_ok t c t' c' : drive1 t c = Some (t', c') -> tstep A V body conv eqb hashb limit t c t' c'.
Proof.
  destruct t as [todo [[a0 [v|e|a next] fr]|] don]; cbn [drive1].
  - destruct fr as [|[key nx] fr]; intros H; inversion H; subst; [apply Finished|apply Return; apply incl_refl].
  - intros H; inversion H; subst. apply Failed.
  - destruct (hashb (conv a)) eqn:EH; [|intros H; inversion H; subst; apply Unhashable; auto].
    destruct (lookup A V eqb (conv a) c) as [v|] eqn:E.
    + intros H; inversion H; subst. eapply Hit; [exact EH|exact E|apply incl_refl].
    + destruct (Nat.ltb_spec (length fr) limit); intros H0; inversion H0; subst; [apply Miss; auto|eapply TooDeep; eauto].
  - destruct todo as [|a todo]; intros H; inversion H; subst. apply Start.
Qed.
Fixpoint drive (sched : list nat) (ts : list (thread A V)) (c : cache A V) : option (list (thread A V) * cache A V) :=
  match sched with
  | [] => Some (ts, c)
  | i :: s =>
      match nth_error ts i with
      | None => None
      | Some t => match drive1 t c with
                  | None => None
                  | Some (t', c') => drive s (upd ts i t') c'
                  end
      end
  end.
Lemma drive_ok ts0 c0 s1 : forall s0 ts c ts' c',
  execution A V body conv eqb hashb limit ts0 c0 s0 ts c -> drive s1 ts c = Some (ts', c') ->
  execution A V body conv eqb hashb limit ts0 c0 (s0 ++ s1) ts' c'.
Proof.
  induction s1 as [|i s1 IH]; intros s0 ts c ts' c' Hex; cbn [drive].
  - intros H. inversion H; subst. rewrite app_nil_r. auto.
  - destruct (nth_error ts i) as [t|] eqn:Ei; [|discriminate]. destruct (drive1 t c) as [[t' c'']|] eqn:Ed; [|discriminate].
    intros H. replace (s0 ++ i :: s1) with ((s0 ++ [i]) ++ s1) by (rewrite <- app_assoc; reflexivity).
    eapply IH; [|exact H]. eapply ExStep; [exact Hex|exact Ei|apply drive1_ok; exact Ed].
Qed.
Lemma drive_fresh calls s ts c : drive s (fresh A V calls) [] = Some (ts, c) ->
  execution A V body conv eqb hashb limit (fresh A V calls) [] s ts c.
Proof. intros H. apply (drive_ok _ _ s [] _ _ _ _ (ExNil _ _ _ _ _ _ _ _ _) H). Qed.
End Drive.
