(** Properties C55, C56 and C57: operators on classes, linear combinations and
    expressions; comparison of classes; drawings.  The vocabulary is that of
    Spec.v, SpecMisc.v and SpecArith.v. *)

From Coq Require Import ZArith List Lia Bool Permutation QArith Qcanon String Ascii.
From Verif Require Import Py ModelPoly ModelStr ModelExpr ModelParse ModelGr ModelArith ModelDraw
  Spec SpecMisc SpecArith ApiArith ApiDraw DrawLabel.
Import ListNotations.
Open Scope Z_scope.

(** C55: when an operator returns, its value is the sum, difference, product or
    power of the values of the operands, whatever the kinds of the operands and
    however sympy answers [bool]. *)
Theorem C55_plus : forall truthy a b r, binary truthy Plus a b = Ok r ->
  peq (meaning r) (padd (meaning a) (meaning b)).
Proof. exact c55_plus. Qed.
Print Assumptions C55_plus.
Theorem C55_minus : forall truthy a b r, binary truthy Minus a b = Ok r ->
  peq (meaning r) (psub (meaning a) (meaning b)).
Proof. exact c55_minus. Qed.
Print Assumptions C55_minus.
Theorem C55_times : forall truthy a b r, binary truthy Times a b = Ok r ->
  peq (meaning r) (pmul (meaning a) (meaning b)).
Proof. exact c55_times. Qed.
Print Assumptions C55_times.
Theorem C55_power : forall truthy a b n r, is_number n b -> binary truthy Power a b = Ok r ->
  peq (meaning r) (ppow (meaning a) n).
Proof. exact c55_power. Qed.
Print Assumptions C55_power.

(** Exactly when they return. *)
Theorem C55_plus_returns : forall truthy a b, proper a -> proper b ->
  ((exists r, binary truthy Plus a b = Ok r) <->
   ~ (is_lc a /\ is_class b) /\ (is_class a -> forall e, b = OLc e -> truthy e = true)).
Proof. exact c55_plus_returns. Qed.
Print Assumptions C55_plus_returns.
Theorem C55_times_returns : forall truthy a b, proper a -> proper b ->
  ((exists r, binary truthy Times a b = Ok r) <->
   ~ (is_lc a /\ is_class b) /\ (is_class a -> forall e, b = OLc e -> truthy e = true)).
Proof. exact c55_times_returns. Qed.
Print Assumptions C55_times_returns.
Theorem C55_minus_returns : forall truthy a b,
  (exists r, binary truthy Minus a b = Ok r) <-> ~ is_class a /\ ~ is_class b.
Proof. exact c55_minus_returns. Qed.
Print Assumptions C55_minus_returns.
Theorem C55_power_returns : forall truthy a b n, proper a -> is_number n b ->
  ((exists r, binary truthy Power a b = Ok r) <->
   ~ (is_expr a /\ is_lc b) /\ (is_class a -> forall e, b = OLc e -> truthy e = true)).
Proof. exact c55_power_returns. Qed.
Print Assumptions C55_power_returns.

(** When the result is a LinearCombination; it never is a Schur object. *)
Theorem C55_kind : forall truthy o a b r, binary truthy o a b = Ok r ->
  (is_lc r <-> ~ is_class a /\ ~ is_class b /\
     match o with
     | Plus | Times => is_lc a \/ is_lc b
     | Minus => is_lc a /\ is_lc b
     | Power => is_lc a
     end).
Proof. exact c55_kind. Qed.
Print Assumptions C55_kind.
Theorem C55_kind_class : forall truthy o a b r, binary truthy o a b = Ok r -> ~ is_class r.
Proof. exact c55_result_class. Qed.
Print Assumptions C55_kind_class.

(** Addition and multiplication of a class and a linear combination work in one
    order only; a class plus the linear combination 0 raises an exception; the
    difference of a linear combination and a number is no linear combination. *)
Theorem C55_order_refuted : exists a b, (forall truthy, truthy (TSym (vS [2])) = true ->
  (exists r, binary truthy Plus a b = Ok r) /\ (exists r, binary truthy Times a b = Ok r) /\
  binary truthy Plus b a = Err ValueError /\ binary truthy Times b a = Err TypeError).
Proof.
  exists (OSchur (SP [1])), (OLc (TSym (vS [2]))). intros tr H. cbn. rewrite H.
  split; [eexists; reflexivity|]. split; [eexists; reflexivity|]. split; reflexivity.
Qed.
Print Assumptions C55_order_refuted.
Theorem C55_zero_refuted : forall truthy s, truthy (TNum 0%Qc) = false ->
  binary truthy Plus (OSchur s) (OLc (TNum 0%Qc)) = Err ValueError.
Proof. intros tr s H. cbn. rewrite H. reflexivity. Qed.
Print Assumptions C55_zero_refuted.
Theorem C55_minus_kind_refuted : forall truthy e n, exists r,
  binary truthy Minus (OLc e) (OExpr (number n)) = Ok r /\ ~ is_lc r.
Proof. intros tr e n. eexists. split; [reflexivity|]. intros [x Hx]. discriminate. Qed.
Print Assumptions C55_minus_kind_refuted.

(** S[1] * (3 * S[2]) + 2, read by Python from left to right *)
Example C55_case : let tr := fun e => match e with TNum c => negb (qc_is0 c) | _ => true end in
  exists x r, binary tr Times (OSchur (SP [1])) (OLc (TMul [TNum (Q2Qc 3); TSym (vS [2])])) = Ok x /\
    binary tr Plus x (OExpr (number 2)) = Ok r /\
    pnorm (meaning r) = pnorm [([vS [1]; vS [2]], Q2Qc 3); ([], Q2Qc 2)].
Proof. eexists. eexists. split; [reflexivity|]. split; [reflexivity|]. vm_compute. reflexivity. Qed.

(** C56: Schur objects are equal when their lists are; equal objects have equal
    hashes, whatever hash function of strings a run of Python uses; on lists of
    integers [<] is the lexicographic order, a strict total order. *)
Theorem C56_equal : forall a b, schur_eq a b = true <-> a = b.
Proof. exact c56_eq. Qed.
Print Assumptions C56_equal.
Theorem C56_hash : forall hash a b, schur_eq a b = true -> schur_hash hash a = schur_hash hash b.
Proof. exact c56_hash. Qed.
Print Assumptions C56_hash.
Theorem C56_less : forall a b, exists r,
  schur_lt (val_of_schur (SP a)) (val_of_schur (SP b)) = Ok r /\ (r = true <-> lex_lt a b).
Proof. exact c56_lt. Qed.
Print Assumptions C56_less.
Theorem C56_total : forall a b,
  (lex_lt a b /\ a <> b /\ ~ lex_lt b a) \/ (a = b /\ ~ lex_lt a b /\ ~ lex_lt b a) \/
  (lex_lt b a /\ a <> b /\ ~ lex_lt a b).
Proof. exact c56_total. Qed.
Print Assumptions C56_total.
Theorem C56_transitive : forall a b c, lex_lt a b -> lex_lt b c -> lex_lt a c.
Proof. exact c56_trans. Qed.
Print Assumptions C56_transitive.
(** The list of classes made from a set does not depend on the order in which
    the set hands out its elements ([order]), nor on the sorting algorithm. *)
Theorem C56_unique_list : forall l order out,
  NoDup order -> (forall x, In x order <-> In x l) ->
  Permutation order out -> weakly_increasing out ->
  out = unique_list l.
Proof. exact c56_unique. Qed.
Print Assumptions C56_unique_list.

Example C56_case : schur_lt (val_of_schur (SP [2; 1])) (val_of_schur (SP [2; 1; 1])) = Ok true /\
  schur_lt (val_of_schur (SP [3])) (val_of_schur (SP [2; 1; 1])) = Ok false /\
  schur_lt (val_of_schur (SP [3])) (val_of_schur (SPair [2] [1])) = Err TypeError /\
  unique_list [[2; 1]; []; [3]; [2; 1]] = [[]; [2; 1]; [3]].
Proof. repeat split; vm_compute; reflexivity. Qed.

(** C57: drawings show every box of the diagram once, at its place, and nothing
    else. *)
Theorem C57_latex : forall p, draws (latex p) p.
Proof. exact (fun p => tikz_draws p false). Qed.
Print Assumptions C57_latex.
Theorem C57_latex_standalone : forall p, draws (latex_standalone p) p.
Proof. exact (fun p => tikz_draws p true). Qed.
Print Assumptions C57_latex_standalone.
(** The text is one tikzpicture environment, in the standalone version inside the
    document environment of a complete file; no line of the picture opens or closes
    an environment. *)
Theorem C57_environments : forall p, exists body,
  (forall l, In l body -> prefix "\begin" l = false /\ prefix "\end" l = false) /\
  latex p = join newline (["\begin{tikzpicture}"]%string ++ body ++ ["\end{tikzpicture}"]%string) /\
  latex_standalone p = join newline (["\documentclass{standalone}"; "\usepackage{tikz}"; "\begin{document}"; "\begin{tikzpicture}"]%string ++
                                     body ++ ["\end{tikzpicture}"; "\end{document}"]%string).
Proof. exact c57_env. Qed.
Print Assumptions C57_environments.
Theorem C57_plot : forall p, exists fig, plot_partition p = Ok fig /\ NoDup (fig_patches fig) /\
  (forall x y, In (x, - y) (fig_patches fig) <-> has_box p y x) /\
  (forall x y, In (x, y) (fig_patches fig) ->
     fst (fig_xlim fig) <= x /\ x + 1 <= snd (fig_xlim fig) /\
     fst (fig_ylim fig) <= y /\ y + 1 <= snd (fig_ylim fig)).
Proof. exact c57_plot. Qed.
Print Assumptions C57_plot.
Theorem C57_print_partition : forall p, (forall a, In a p -> 0 <= a) ->
  Forall2 (fun a s => Z.of_nat (String.length s) = 3 * a /\
    forall j, 0 <= j < a -> char_at s (Z.to_nat (3 * j)) = Some "["%char /\
      char_at s (Z.to_nat (3 * j + 1)) = Some " "%char /\ char_at s (Z.to_nat (3 * j + 2)) = Some "]"%char)
  p (print_partition p).
Proof. exact c57_print. Qed.
Print Assumptions C57_print_partition.
Theorem C57_yd : forall p, (forall a, In a p -> 0 <= a) -> exists title rows,
  yd p = title :: rows /\ numbers title = p /\ Forall2 (fun a s => shows s a a) p rows.
Proof. exact c57_yd'. Qed.
Print Assumptions C57_yd.
(** Each picture has one label, above the first row, and the label names the
    partition.  Its distance from the left is 2.5 mm for each row of the diagram (not
    for each column: the label is not centred). *)
Theorem C57_label : forall p, (exists L, lines_of (latex p) L /\ label_at L p (25 * zlen p)) /\
  (exists L, lines_of (latex_standalone p) L /\ label_at L p (25 * zlen p)).
Proof. exact c57_label. Qed.
Print Assumptions C57_label.
(** The figure has the label in the middle of the longest row, above the diagram
    (coordinates in halves). *)
Theorem C57_label_plot : forall p, exists fig, plot_partition p = Ok fig /\ names (fig_label fig) p /\
  snd (fig_label_at2 fig) = 2 /\ (forall a, In a p -> a <= fst (fig_label_at2 fig)) /\ (p <> [] -> In (fst (fig_label_at2 fig)) p).
Proof. exact c57_plot_label. Qed.
Print Assumptions C57_label_plot.

Example C57_case : tikz_rows 0 [2; 1] =
  ["\node at (0mm, 0mm) {};"; "\node at (5mm, 0mm) {};"; "\node at (0mm, -5mm) {};"]%string /\
  print_partition [2; 1] = ["[ ][ ]"; "[ ]"]%string /\
  yd [2; 1] = ["Young diagram for partition: [2, 1]"; "[][]"; "[]"]%string /\
  plot_partition [2; 1] = Ok (mkFig [(0, 0); (1, 0); (0, -1)] (-1, 3) (-3, 1) "$S_{(2, 1)}$" (2, 2)) /\
  nth 3 (tikz_lines [3; 2; 2] false) EmptyString = "\node[draw=none, anchor=south] at (7.5mm, 5mm) {$S_{(3, 2, 2)}$};"%string /\
  numbers "S_{(3, 2, 2)}" = [3; 2; 2].
Proof. repeat split; vm_compute; reflexivity. Qed.
