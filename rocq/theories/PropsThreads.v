(** Property C79: threads that call the memoised functions at the same time.
    ModelThreads.v defines an execution: any number of threads, each with a list
    of calls to make, take steps in any order. *)

From Coq Require Import ZArith List Lia Bool QArith Qcanon Arith.
From Verif Require Import Py ModelPart ModelQcalc ModelPoly ModelGr ModelCache ModelThreads Spec ThreadFacts ApiThreads.
Import ListNotations.
Open Scope Z_scope.

(** Whatever the schedule: a thread answers its calls in order, and the answers
    are those of the undecorated function ([run_plain]), as far as the depth of
    the stack allows. *)
Theorem C79_results : forall (A V : Type) (body : A -> comp A V) conv eqb hashb limit,
  (forall a b, eqb a b = true -> a = b) ->
  (forall a, body (conv a) = body a) ->
  (forall a, hashb (conv a) = true) ->
  forall calls sched ts c i l t,
  execution A V body conv eqb hashb limit (fresh A V calls) [] sched ts c ->
  nth_error calls i = Some l -> nth_error ts i = Some t ->
  (exists rest, map fst (t_done A V t) ++ rest = l) /\
  (finished A V t -> map fst (t_done A V t) = l) /\
  forall a r, In (a, r) (t_done A V t) ->
    (run_plain A V body limit a <> Err RecursionError -> r = run_plain A V body limit a) /\
    (r <> Err RecursionError -> exists limit', run_plain A V body limit' a = r).
Proof. exact c79_results. Qed.
Print Assumptions C79_results.

(** No thread waits for another one or is slowed down by it: a thread that has
    not finished can take a step whatever the other threads have done to the
    cache, and the number of its steps is bounded by a number that depends on
    its own calls only. *)
Theorem C79_bounded : forall (A V : Type) (body : A -> comp A V) conv eqb hashb limit,
  (forall a b, eqb a b = true -> a = b) ->
  (forall a, body (conv a) = body a) ->
  (forall a, hashb (conv a) = true) ->
  exists bound : list A -> nat, forall calls sched ts c i l t,
  execution A V body conv eqb hashb limit (fresh A V calls) [] sched ts c ->
  nth_error calls i = Some l -> nth_error ts i = Some t ->
  (forall a, In a l -> run_plain A V body limit a <> Err RecursionError) ->
  (count_occ Nat.eq_dec sched i <= bound l)%nat /\
  (finished A V t -> t_done A V t = map (fun a => (a, run_plain A V body limit a)) l) /\
  (~ finished A V t -> forall c', exists t' c'', tstep A V body conv eqb hashb limit t c' t' c'').
Proof. exact c79_bounded. Qed.
Print Assumptions C79_bounded.

(** giambelli_rec_inner and the Pieri function it calls, both decorated, called
    by threads on any objects [o] with lists or tuples: the results are those of
    the functions without a memo table.  ([inner] is the undecorated Pieri
    function, [n o] the attribute [_n] of the object.) *)
Theorem C79_giambelli : forall (inner : Z -> Z -> list Z -> Z -> Z -> res poly) (n : Z -> Z) depth
    calls sched ts c i t o s k r,
  execution _ _ (both_body inner n) bconv bargs_eqb bargs_hash (S depth) (fresh _ _ calls) [] sched ts c ->
  nth_error ts i = Some t -> In (inl (o, s, k), r) (t_done _ _ t) ->
  (giambelli_rec_inner depth (fun p lam => inner o p lam k (n o)) k (as_list s) <> Err RecursionError ->
   r = giambelli_rec_inner depth (fun p lam => inner o p lam k (n o)) k (as_list s)) /\
  (r <> Err RecursionError ->
   exists depth', giambelli_rec_inner depth' (fun p lam => inner o p lam k (n o)) k (as_list s) = r).
Proof. exact c79_giambelli. Qed.
Print Assumptions C79_giambelli.

Theorem C79_pieri : forall (inner : Z -> Z -> list Z -> Z -> Z -> res poly) (n : Z -> Z) depth
    calls sched ts c i t o p s k m r,
  execution _ _ (both_body inner n) bconv bargs_eqb bargs_hash (S depth) (fresh _ _ calls) [] sched ts c ->
  nth_error ts i = Some t -> In (inr (o, p, s, k, m), r) (t_done _ _ t) ->
  inner o p (as_list s) k m <> Err RecursionError ->
  r = inner o p (as_list s) k m.
Proof. exact c79_pieri. Qed.
Print Assumptions C79_pieri.

(** Two threads on Gr(2,4) that ask for the Giambelli polynomial of S[1,1] and
    take turns: both miss the cache and both compute the value. *)
Example C79_case :
  let inner := fun _ p l k n => pieriA_inner p l k n in
  let n := fun _ : Z => 4 in
  exists ts c,
  execution _ _ (both_body inner n) bconv bargs_eqb bargs_hash 9
    (fresh _ _ [[inl (0, SList [1; 1], 2)]; [inl (0, STuple [1; 1], 2)]]) []
    (flat_map (fun _ => [0; 1]%nat) (seq 0 17)) ts c /\
  Forall (finished _ _) ts /\
  map (t_done _ _) ts =
    [[(inl (0, SList [1; 1], 2), Ok (psub (pmul (pS [1]) (pS [1])) (pS [2])))];
     [(inl (0, STuple [1; 1], 2), Ok (psub (pmul (pS [1]) (pS [1])) (pS [2])))]].
Proof.
  eexists. eexists. split; [apply drive_fresh; vm_compute; reflexivity|].
  split; [repeat constructor|vm_compute; reflexivity].
Qed.
