(** Properties C64, C65 and C66: texts of linear combinations and Grassmannians,
    the form of expressions. *)

From Coq Require Import ZArith List QArith Qcanon String Ascii.
From Verif Require Import Py ModelPart ModelQcalc ModelPoly ModelStr ModelExpr ModelGr ModelText Spec SpecMisc SpecText
  ExprFacts TextFacts.
Import ListNotations.
Open Scope Z_scope.

(** C64: the constructor, given the printed text of a linear combination, parses
    exactly the text sympy had for its expression. *)
Theorem C64_read_back : forall txt, sympy_text txt -> lc_read (lc_str txt) = txt.
Proof. exact c64_back. Qed.
Print Assumptions C64_read_back.

(** The printed text shows a class as S[a,b,...], wherever it stands. *)
Theorem C64_print_class : forall a s b, schur_nonneg s = true ->
  lc_str (a ++ symbol_name (VS s) ++ b) = (lc_str a ++ str_of_schur s ++ lc_str b)%string.
Proof. exact c64_class. Qed.
Print Assumptions C64_print_class.

(** A class S[a,b,...] in a text given to the constructor is read as its symbol,
    and the character ^ as the power operator. *)
Theorem C64_read_class : forall a s b, schur_nonneg s = true ->
  lc_read (a ++ str_of_schur s ++ b) = (lc_read a ++ symbol_name (VS s) ++ lc_read b)%string.
Proof. exact c64_read_class. Qed.
Print Assumptions C64_read_class.

Theorem C64_read_power : forall a b, lc_read (a ++ "^" ++ b) = (lc_read a ++ "**" ++ lc_read b)%string.
Proof. exact c64_read_power. Qed.
Print Assumptions C64_read_power.

Example C64_case : sympy_text "Sf2j1g*q**2 + 3*Sfg" /\
  lc_str "Sf2j1g*q**2 + 3*Sfg" = "S[2,1]*q^2 + 3*S[]"%string /\
  lc_read "S[2,1]*q^2 + 3*S[]" = "Sf2j1g*q**2 + 3*Sfg"%string.
Proof.
  split; [|vm_compute; auto]. unfold sympy_text.
  repeat (constructor; [cbn; intros H; decompose [or] H; try discriminate; auto|]). constructor.
Qed.

(** C65: [is_operator] tells sums, products and powers apart and rejects any other
    operator; [list_schur_oprands] lists the classes that occur; [len] of a sum of
    multiples of classes is the number of pairs that [schur_expansion] gives. *)
Theorem C65_operator : forall e op r, is_operator e op = r ->
  (op = "+"%string -> r = Ok true <-> exists l, e = TAdd l) /\
  (op = "*"%string -> r = Ok true <-> exists l, e = TMul l) /\
  (op = "^"%string -> r = Ok true <-> exists b k, e = TPow b k) /\
  (~ In op ["+"; "*"; "^"]%string -> r = Err ValueError).
Proof. exact c65_operator. Qed.
Print Assumptions C65_operator.

Theorem C65_operands : forall s e, listed s (list_schur_oprands e) <-> occurs (VS s) e.
Proof. exact c65_operands. Qed.
Print Assumptions C65_operands.

Theorem C65_len : forall ts, (forall t, In t ts -> exists lam, class_term t lam) ->
  exists xs, schur_expansion (TAdd ts) true = Ok (Many xs) /\ lc_len (TAdd ts) = Z.of_nat (List.length xs).
Proof. exact c65_len. Qed.
Print Assumptions C65_len.

(** For a single multiple of a class the two disagree: len(3 S[1]) is 2. *)
Theorem C65_len_refuted : exists t lam x, class_term t lam /\ schur_expansion t true = Ok (One x) /\ lc_len t = 2.
Proof. exact c65_len_one. Qed.
Print Assumptions C65_len_refuted.

Example C65_case : let e := TAdd [TMul [TNum (Q2Qc 3); TSym (vS [1])]; TPow (TSym (vS [2; 1])) 2] in
  is_operator e "+" = Ok true /\ is_operator e "*" = Ok false /\ is_operator e "-" = Err ValueError /\
  list_schur_oprands e = NList [NList [NNone; NSchur (SP [1])]; NList [NSchur (SP [2; 1]); NNone]] /\ lc_len e = 2.
Proof. vm_compute. repeat split; reflexivity. Qed.

(** C66: the text of a Grassmannian determines it, and shows the call that made it. *)
Theorem C66_injective : forall g g', gr_str g = gr_str g' -> g = g'.
Proof. exact c66_str_inj. Qed.
Print Assumptions C66_injective.

Theorem C66_call : forall m n g,
  (Grassmannian m n = Ok g -> exists a b, gr_str g = (a ++ "Gr(" ++ str_of_Z m ++ "," ++ str_of_Z n ++ ")" ++ b)%string) /\
  (IsotropicGrassmannian m n = Ok g -> exists a b, gr_str g = (a ++ "IG(" ++ str_of_Z m ++ "," ++ str_of_Z n ++ ")" ++ b)%string) /\
  (OrthogonalGrassmannian m n = Ok g -> exists a b, gr_str g = (a ++ "OG(" ++ str_of_Z m ++ "," ++ str_of_Z n ++ ")" ++ b)%string).
Proof. exact c66_call. Qed.
Print Assumptions C66_call.

(** ... and ends with the degree of q, which is the one for which the products are
    homogeneous (C10, C26, C46): n on Gr(m,n), N+1-m on IG(m,N), N-1-m on OG(m,N), except that it
    is N-1 or N-2, the even one, for m = N/2. *)
Theorem C66_degree : forall m n g,
  (Grassmannian m n = Ok g -> degree_q g = n) /\
  (IsotropicGrassmannian m n = Ok g -> degree_q g = n + 1 - m) /\
  (OrthogonalGrassmannian m n = Ok g -> m <= n / 2 -> degree_q g = if m =? n / 2 then 2 * ((n - 1) / 2) else n - 1 - m) /\
  exists a, gr_str g = (a ++ " deg(q) = " ++ str_of_Z (degree_q g))%string.
Proof. exact c66_degree. Qed.
Print Assumptions C66_degree.

Example C66_case :
  gr_str (mkGr TA 3 5) = "Type A ;  (k,n) = (3,5) ;  Gr(2,5) ;  deg(q) = 5"%string /\ Grassmannian 2 5 = Ok (mkGr TA 3 5) /\
  gr_str (mkGr TD 1 3) = "Type D ;  (k,n) = (1,3) ;  OG(3,8) ;  deg(q) = 4"%string /\ OrthogonalGrassmannian 3 8 = Ok (mkGr TD 1 3).
Proof. vm_compute. repeat split; reflexivity. Qed.
