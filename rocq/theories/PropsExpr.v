(** Properties C20, C21, C22, C39 and C41: symbols of classes, the memoising
    decorators, substitution in expressions, schur_expansion and the validity
    predicates.  The vocabulary is that of Spec.v and SpecMisc.v. *)

From Coq Require Import ZArith List Lia Bool Permutation QArith Qcanon String Ascii.
From Verif Require Import Py ModelPart ModelQcalc ModelPoly ModelStr ModelGr ModelExpr ModelParse ModelCache
  Spec SpecMisc Check SuppFacts ExprFacts ParseFacts CacheFacts ReadAll ApiExpr ApiPart.
Import ListNotations.
Open Scope Z_scope.

(** C20: reading the symbol of a class gives the class back, different classes
    have different symbols, and symbols are identifiers beginning with S. *)
Theorem C20_roundtrip : forall l, forallb val_nonneg l = true ->
  toSchur (symbol_str (PList l)) = Ok (PList l).
Proof. exact toSchur_symbol. Qed.
Print Assumptions C20_roundtrip.

Theorem C20_injective : forall l l',
  forallb val_nonneg l = true -> forallb val_nonneg l' = true ->
  symbol_str (PList l) = symbol_str (PList l') -> l = l'.
Proof. exact symbol_str_inj. Qed.
Print Assumptions C20_injective.

(** A text that is read is read to its end: it holds nothing but digits, commas
    and brackets, and the brackets are those of the value. *)
Theorem C20_reads_all : forall s v, toSchur s = Ok v ->
  alls (fun c => list_char c \/ c = "S"%char) (decode s) /\ brackets (decode s) = brackets (schur_str v).
Proof. exact toSchur_reads. Qed.
Print Assumptions C20_reads_all.
Example C20_reads_all_case :
  toSchur "Sf2,[1,]g" = Ok (PList [PInt 2; PList [PInt 1]]) /\
  brackets (decode "Sf2,[1,]g") = "[[]]"%string /\
  (exists e, toSchur "Sf2gx" = Err e) /\ (exists e, toSchur "Sf2gf" = Err e).
Proof. repeat split; try (eexists; vm_compute; reflexivity); vm_compute; reflexivity. Qed.

Theorem C20_identifier : forall v, val_nonneg v = true ->
  exists t, symbol_str v = String "S"%char t /\ alls ident_char t.
Proof. exact symbol_ident. Qed.
Print Assumptions C20_identifier.

(** The variables of the model stand for the symbols of the code: classes with
    the same symbol are the same class. *)
Theorem C20_class_symbols : forall s s', schur_nonneg s = true -> schur_nonneg s' = true ->
  symbol_name (VS s) = symbol_name (VS s') -> s = s'.
Proof. exact class_symbol_inj. Qed.
Print Assumptions C20_class_symbols.

(** So do q, q1 and q2: no two variables have the same name. *)
Theorem C20_variable_symbols : forall v w,
  match v with VS s => schur_nonneg s = true | _ => True end ->
  match w with VS s => schur_nonneg s = true | _ => True end ->
  symbol_name v = symbol_name w -> v = w.
Proof. exact var_symbol_inj. Qed.
Print Assumptions C20_variable_symbols.

Example C20_case : symbol_str (PList [PInt 12; PInt 3; PInt 0]) = "Sf12j3j0g"%string /\
  toSchur "Sf12j3j0g" = Ok (PList [PInt 12; PInt 3; PInt 0]) /\
  symbol_str (PList [PList [PInt 2]; PList []]) = "Sff2gjfgg"%string /\
  toSchur "Sff2gjfgg" = Ok (PList [PList [PInt 2]; PList []]).
Proof. repeat split; vm_compute; reflexivity. Qed.
(** Without the hypothesis the claim fails: a minus sign survives in the symbol
    and is not in the reading table; the model of the reader rejects it. *)
Example C20_negative : symbol_str (PList [PInt (-1)]) = "Sf-1g"%string.
Proof. vm_compute. reflexivity. Qed.

(** C21: [history] is the sequence of the results of calls of decorated functions
    that share a cache, [run_plain] the same function without the decorator; the
    number bounds the depth of nested calls.  A call that the undecorated
    function answers within the allowed depth is answered in the same way, and
    whatever the decorated function answers, the undecorated one answers too,
    if it is allowed enough depth. *)
Theorem C21_transparent : forall (A V : Type) (body : A -> comp A V) conv eqb hashb evict,
  (forall a b, eqb a b = true -> a = b) ->
  (forall a, body (conv a) = body a) ->
  (forall a, hashb (conv a) = true) ->
  (forall c x, In x (evict c) -> In x c) ->
  forall depth calls,
  List.length (history A V body conv eqb hashb evict depth calls []) = List.length calls /\
  forall i a r, nth_error calls i = Some a ->
    nth_error (history A V body conv eqb hashb evict depth calls []) i = Some r ->
    (run_plain A V body depth a <> Err RecursionError -> r = run_plain A V body depth a) /\
    (r <> Err RecursionError -> exists depth', run_plain A V body depth' a = r).
Proof. exact history_transparent. Qed.
Print Assumptions C21_transparent.

(** giambelli_rec_inner: for every history of calls on any objects, with lists
    or tuples, the results are those of the recursion without a cache. *)
Theorem C21_giambelli : forall (pi : Z -> Z -> list Z -> res poly) depth calls i o s k r,
  nth_error calls i = Some (o, s, k) ->
  nth_error (history _ _ (giam_body pi) gconv gargs_eqb gargs_hash (fun c => c) depth calls []) i = Some r ->
  (giambelli_rec_inner depth (pi o) k (as_list s) <> Err RecursionError ->
   r = giambelli_rec_inner depth (pi o) k (as_list s)) /\
  (r <> Err RecursionError ->
   exists depth', giambelli_rec_inner depth' (pi o) k (as_list s) = r).
Proof. exact history_giam. Qed.
Print Assumptions C21_giambelli.

(** The Pieri functions (pieriA_inner and so on): every history of calls
    returns exactly what the undecorated function returns. *)
Theorem C21_pieri : forall (inner : Z -> Z -> list Z -> Z -> Z -> res poly) depth calls,
  history _ _ (flat_body (call_inner inner)) pconv pargs_eqb pargs_hash (fun c => c) (S depth) calls [] =
  map (fun '(o, p, s, k, n) => inner o p (as_list s) k n) calls.
Proof. exact history_pieri. Qed.
Print Assumptions C21_pieri.

(** Gr(2,4), first with a list and then with the same entries as a tuple; the
    second call is answered from the cache. *)
Example C21_case :
  let pi := fun (_ i : Z) l => pieri_fun (mkGr TA 2 4) i l in
  history _ _ (giam_body pi) gconv gargs_eqb gargs_hash (fun c => c) 9 [(0, SList [1; 1], 2); (0, STuple [1; 1], 2)] [] =
    [giambelli_rec_inner 9 (pi 0) 2 [1; 1]; giambelli_rec_inner 9 (pi 0) 2 [1; 1]] /\
  giambelli_rec_inner 9 (pi 0) 2 [1; 1] = Ok (psub (pmul (pS [1]) (pS [1])) (pS [2])) /\
  snd (run_cached _ _ (giam_body pi) gconv gargs_eqb gargs_hash (fun c => c) 9 (0, SList [1; 1], 2) []) <> [].
Proof. vm_compute. repeat split; auto; discriminate. Qed.
(** The second hypothesis is needed: a function that tells a list from a tuple
    is changed by the decorator. *)
Example C21_conv_needed :
  let body := fun a : Z => Ret (V := Z) a in
  history Z Z body (fun _ => 0) Z.eqb (fun _ => true) (fun c => c) 1 [5] [] = [Ok 0] /\
  run_plain Z Z body 1 5 = Ok 5.
Proof. vm_compute. auto. Qed.
(** So is the third: a list is refused as a key unless it is made a tuple. *)
Example C21_hash_needed :
  let pi := fun (_ i : Z) l => pieri_fun (mkGr TA 2 4) i l in
  history _ _ (giam_body pi) (fun a => a) gargs_eqb gargs_hash (fun c => c) 9 [(0, SList [1; 1], 2)] [] = [Err TypeError].
Proof. vm_compute. reflexivity. Qed.

(** C22: apply is the homomorphism that replaces classes by their images: it is
    additive and multiplicative, fixes numbers and q, and its value does not
    depend on how the expression is written. *)
Theorem C22_add : forall f a b x y, apply_lc f a = Ok x -> apply_lc f b = Ok y ->
  exists z, apply_lc f (padd a b) = Ok z /\ peq z (padd x y).
Proof. exact apply_add. Qed.
Print Assumptions C22_add.

Theorem C22_mul : forall f a b x y, apply_lc f a = Ok x -> apply_lc f b = Ok y ->
  exists z, apply_lc f (pmul a b) = Ok z /\ peq z (pmul x y).
Proof. exact apply_mul. Qed.
Print Assumptions C22_mul.

Theorem C22_const : forall f c, exists z, apply_lc f (pconst c) = Ok z /\ peq z (pconst c).
Proof. exact apply_const. Qed.
Print Assumptions C22_const.

Theorem C22_q : forall f v, In v [VQ; VQ1; VQ2] ->
  exists z, apply_lc f (pvar v) = Ok z /\ peq z (pvar v).
Proof. exact apply_q. Qed.
Print Assumptions C22_q.

Theorem C22_class : forall f s x, f s = Ok x ->
  exists z, apply_lc f (pvar (VS s)) = Ok z /\ peq z x.
Proof. exact apply_class. Qed.
Print Assumptions C22_class.

(** The code walks over the unexpanded expression; on every tree for which it
    returns, the result is that of the expanded polynomial. *)
Theorem C22_tree : forall f e r, tree_apply f e = Ok r ->
  exists r', apply_lc f (expand e) = Ok r' /\ peq r r'.
Proof. exact tree_apply_lc. Qed.
Print Assumptions C22_tree.

Theorem C22_bracketing : forall f e1 e2 r1 r2,
  tree_apply f e1 = Ok r1 -> tree_apply f e2 = Ok r2 ->
  peq (expand e1) (expand e2) -> peq r1 r2.
Proof. exact tree_apply_bracket. Qed.
Print Assumptions C22_bracketing.

(** It returns whenever the function does on every class that occurs. *)
Theorem C22_total : forall f e, (forall s, occurs (VS s) e -> exists x, f s = Ok x) ->
  exists r, tree_apply f e = Ok r.
Proof. exact tree_apply_total. Qed.
Print Assumptions C22_total.

(** (S[1] + q)^2 and S[1]^2 + 2 q S[1] + q^2 with S[1] replaced by S[2] + 1. *)
Example C22_case :
  let f := fun s => Ok (padd (pS [2]) pone) in
  let e1 := TPow (TAdd [TSym (vS [1]); TSym VQ]) 2 in
  let e2 := TAdd [TPow (TSym (vS [1])) 2; TMul [TNum (Q2Qc 2); TSym VQ; TSym (vS [1])]; TPow (TSym VQ) 2] in
  expand e1 = expand e2 /\ e1 <> e2 /\
  tree_apply f e1 = Ok (ppow (padd (padd (pS [2]) pone) (pvar VQ)) 2) /\
  tree_apply f e1 = tree_apply f e2.
Proof. vm_compute. repeat split; auto; discriminate. Qed.

(** C39: on a sum of terms, each a multiple of one class, schur_expansion returns
    one pair per term (those without q unless include_q), each describing its
    term, in the order of the partitions. *)
Theorem C39_sum : forall ts include_q kept,
  (forall t, In t ts -> exists lam, class_term t lam) ->
  (forall t, kept t = true <-> include_q = true \/ q_free t) ->
  exists xs ys lams, schur_expansion (TAdd ts) include_q = Ok (Many xs) /\
    Forall2 reports (filter kept ts) ys /\ Permutation xs ys /\
    map snd xs = map SP lams /\ weakly_increasing lams.
Proof. exact c39_kept. Qed.
Print Assumptions C39_sum.

Theorem C39_value : forall ts,
  (forall t, In t ts -> exists lam, class_term t lam) ->
  exists xs lams, schur_expansion (TAdd ts) true = Ok (Many xs) /\ List.length xs = List.length ts /\
    map snd xs = map SP lams /\ weakly_increasing lams /\
    peq (expand (TAdd ts)) (psum (map value xs)).
Proof. exact c39_value. Qed.
Print Assumptions C39_value.

Theorem C39_term : forall t lam include_q, class_term t lam ->
  exists x, schur_expansion t include_q = Ok (One x) /\ reports t x.
Proof. exact c39_one. Qed.
Print Assumptions C39_term.

(** A number is truncated towards 0 and reported with the empty partition. *)
Theorem C39_number : forall c include_q,
  exists z, schur_expansion (TNum c) include_q = Ok (One (TNum (Q2Qc (inject_Z z)), SP [])) /\
    (0 <= this c -> inject_Z z <= this c < inject_Z (z + 1))%Q /\
    (this c <= 0 -> inject_Z (z - 1) < this c <= inject_Z z)%Q.
Proof. exact c39_trunc. Qed.
Print Assumptions C39_number.

(** What lies outside: a number that is not an integer is truncated, and a sum
    with a bare q (or a power) is never answered. *)
Theorem C39_number_refuted : exists c x,
  schur_expansion (TNum c) true = Ok (One x) /\ ~ peq (expand (fst x)) (pconst c).
Proof. exact c39_number. Qed.
Print Assumptions C39_number_refuted.

Theorem C39_bare_q_refuted : exists e, is_valid e = true /\ schur_expansion e true = Err RecursionError.
Proof. exact c39_bare_q. Qed.
Print Assumptions C39_bare_q_refuted.

(** 2 S[2] + S[1,1] + 3 q S[]: with and without the quantum part. *)
Definition C39_terms : list tree :=
  [TMul [TNum (Q2Qc 2); TSym (vS [2])]; TSym (vS [1; 1]); TMul [TNum (Q2Qc 3); TSym (vS []); TSym VQ]].
Example C39_hypothesis : forall t, In t C39_terms -> exists lam, class_term t lam.
Proof.
  intros t [<-|[<-|[<-|[]]]].
  - exists [2]. apply (ct_product [TNum (Q2Qc 2)] [2] []). intros x s [<-|[]]; discriminate.
  - exists [1; 1]. constructor.
  - exists []. apply (ct_product [TNum (Q2Qc 3)] [] [TSym VQ]). intros x s [<-|[<-|[]]]; discriminate.
Qed.
Example C39_case :
  schur_expansion (TAdd C39_terms) true =
    Ok (Many [(TMul [TNum (Q2Qc 3); TSym VQ], SP []); (TNum 1%Qc, SP [1; 1]); (TMul [TNum (Q2Qc 2)], SP [2])]) /\
  schur_expansion (TAdd C39_terms) false =
    Ok (Many [(TNum 1%Qc, SP [1; 1]); (TMul [TNum (Q2Qc 2)], SP [2])]).
Proof. vm_compute. auto. Qed.

(** C41: the predicates on partitions and expressions. *)
Theorem C41_valid_part : forall l, is_valid_part l = true <->
  (forall j, (j < List.length l)%nat -> 0 <= part l j) /\
  (forall i j, (i <= j < List.length l)%nat -> part l j <= part l i).
Proof. exact valid_part_iff. Qed.
Print Assumptions C41_valid_part.

Theorem C41_partition : forall l r, mk_partition l = Ok r <-> is_valid_part l = true /\ r = l.
Proof. exact mk_partition_iff. Qed.
Print Assumptions C41_partition.

(** [part_clip l] is what remains of [l] without its trailing zeros. *)
Theorem C41_clip : forall l,
  exists c, l = part_clip l ++ repeat 0 c /\ forall a, part_clip l <> a ++ [0].
Proof. exact clip_char. Qed.
Print Assumptions C41_clip.

Theorem C41_clip_idempotent : forall l, part_clip (part_clip l) = part_clip l.
Proof. exact clip_idem. Qed.
Print Assumptions C41_clip_idempotent.

Theorem C41_in_range : forall l r c, 0 <= r -> 0 <= c -> is_partition l ->
  exists b, is_in_range l r c = Ok b /\ (b = true <-> in_box r c l).
Proof. exact in_range_iff. Qed.
Print Assumptions C41_in_range.

(** Trailing zeros count as rows: the empty diagram, written [0; 0], is not "in
    range" of one row. *)
Theorem C41_in_range_zeros_refuted : exists l r c, is_valid_part l = true /\
  in_box r c (part_clip l) /\ is_in_range l r c = Ok false.
Proof. exact in_range_zeros. Qed.
Print Assumptions C41_in_range_zeros_refuted.

Theorem C41_zero_padding : forall e,
  has_part_zero_padding e = true <-> exists l, occurs (vS (l ++ [0])) e.
Proof. exact c41_padding. Qed.
Print Assumptions C41_zero_padding.

(** An expression accepted by is_valid expands to terms of degree at most 1. *)
Theorem C41_valid_linear : forall e m, is_valid e = true -> coef (expand e) m <> 0%Qc ->
  (List.length m <= 1)%nat.
Proof. exact valid_linear. Qed.
Print Assumptions C41_valid_linear.

Example C41_case :
  is_valid_part [3; 3; 1; 0] = true /\ is_valid_part [1; 2] = false /\ is_valid_part [1; -1] = false /\
  part_clip [3; 0; 1; 0; 0] = [3; 0; 1] /\
  is_in_range [3; 1] 2 3 = Ok true /\ is_in_range [3; 1] 2 2 = Ok false /\ is_in_range [3; 1] 1 3 = Ok false /\
  has_part_zero_padding (TMul [TNum (Q2Qc 2); TSym (vS [2; 0])]) = true /\
  has_part_zero_padding (TSym (vS [2; 0; 1])) = false /\
  is_valid (TAdd [TMul [TNum (Q2Qc 2); TSym (vS [2])]; TSym VQ]) = true /\
  is_valid (TMul [TSym VQ; TSym (vS [2])]) = false.
Proof. vm_compute. repeat split; reflexivity. Qed.
