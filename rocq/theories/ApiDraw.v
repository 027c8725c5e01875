(** Comparison of Schur objects; drawings of partitions. *)

From Coq Require Import ZArith List Lia Bool String Ascii DecimalString DecimalZ DecimalFacts Permutation Sorted.
From Verif Require Import Py PyFacts ModelPoly ModelStr ModelMisc ModelParse ModelGr ModelArith ModelDraw OrderFacts Schub
  ParseFacts ApiMisc Spec SpecMisc SpecArith.
Import ListNotations.
Open Scope Z_scope.

(** ** Comparison *)
Lemma py_eq_iff a : forall b, py_eq a b = true <-> a = b.
Proof.
  induction a as [z|l IH] using pyval_ind2; intros [z'|l']; cbn [py_eq]; try (split; discriminate).
  - rewrite Z.eqb_eq. split; congruence.
  - transitivity (l = l'); [|split; congruence]. revert l'.
    induction IH as [|x t Hx Ht IHt]; intros [|y t']; try (split; congruence).
    rewrite andb_true_iff, Hx, IHt. split; [intros [-> ->]; auto|intros E; inversion E; auto].
Qed.
Theorem c56_hash hash a b : schur_eq a b = true -> schur_hash hash a = schur_hash hash b.
Proof. intros H. apply py_eq_iff in H. subst. auto. Qed.
Theorem c56_eq a b : schur_eq a b = true <-> a = b.
Proof. apply py_eq_iff. Qed.

Definition flat (l : list Z) : pyval := PList (map PInt l).
Lemma py_lt_flat a : forall b, py_lt (flat a) (flat b) = Ok (match zl_cmp a b with Lt => true | _ => false end).
Proof.
  induction a as [|x a IH]; intros [|y b]; try reflexivity.
  specialize (IH b). cbn in *. destruct (Z.eqb_spec x y) as [->|N].
  - rewrite Z.compare_refl. exact IH.
  - unfold Z.ltb. destruct (Z.compare_spec x y); auto. congruence.
Qed.
Lemma lex_zl_lt a b : lex_lt a b -> zl_cmp a b = Lt.
Proof.
  intros (pre & H). revert a b H. induction pre as [|z pre IH]; intros a b H.
  - destruct H as [(y & t & -> & ->)|(x & y & t & u & -> & -> & L)]; [reflexivity|]. cbn.
    apply Z.compare_lt_iff in L. rewrite L. auto.
  - destruct H as [(y & t & -> & ->)|(x & y & t & u & -> & -> & L)]; cbn; rewrite Z.compare_refl; apply IH; [left|right]; eauto 10.
Qed.
Theorem c56_lt a b : exists r, schur_lt (flat a) (flat b) = Ok r /\ (r = true <-> lex_lt a b).
Proof.
  eexists. split; [apply py_lt_flat|]. split.
  - destruct (zl_cmp a b) eqn:E; intros H; try discriminate. apply zl_lt_lex; auto.
  - intros H. rewrite (lex_zl_lt _ _ H). auto.
Qed.
Theorem c56_total a b :
  (lex_lt a b /\ a <> b /\ ~ lex_lt b a) \/ (a = b /\ ~ lex_lt a b /\ ~ lex_lt b a) \/ (lex_lt b a /\ a <> b /\ ~ lex_lt a b).
Proof.
  pose proof (cmp_opp _ zl_cmp_ok a b) as Ho. pose proof (cmp_eq _ zl_cmp_ok a b) as He.
  assert (Na : zl_cmp a b <> Lt -> ~ lex_lt a b) by (intros H L; apply H, lex_zl_lt, L).
  assert (Nb : zl_cmp b a <> Lt -> ~ lex_lt b a) by (intros H L; apply H, lex_zl_lt, L).
  destruct (zl_cmp a b) eqn:E; rewrite Ho in Nb; cbn in Nb, Ho.
  - right; left. split; [apply He; auto|]. split; [apply Na|apply Nb]; discriminate.
  - left. split; [apply zl_lt_lex; auto|]. split; [intros X; apply He in X; discriminate|apply Nb; discriminate].
  - right; right. split; [apply zl_lt_lex; auto|]. split; [intros X; apply He in X; discriminate|apply Na; discriminate].
Qed.
Theorem c56_trans a b c : lex_lt a b -> lex_lt b c -> lex_lt a c.
Proof.
  intros H1 H2. apply zl_lt_lex. eapply (cmp_trans _ zl_cmp_ok); apply lex_zl_lt; eassumption.
Qed.

Lemma weak_sorted l : weakly_increasing l -> StronglySorted (cle zl_cmp) l.
Proof.
  induction l as [|x t IH]; intros H; constructor.
  - apply IH. intros i j Hij. specialize (H (S i) (S j)). cbn [nth List.length] in H. apply H. lia.
  - apply Forall_forall. intros y Hy. destruct (In_nth _ _ [] Hy) as (j & Hj & E).
    specialize (H O (S j)). cbn [nth List.length] in H. rewrite E in H. unfold cle.
    destruct H as [->|H]; [lia| |].
    + rewrite (cmp_refl _ zl_cmp_ok). discriminate.
    + apply lex_zl_lt in H. rewrite H. discriminate.
Qed.
Theorem c56_unique l order out :
  NoDup order -> (forall x, In x order <-> In x l) -> Permutation order out -> weakly_increasing out ->
  out = unique_list l.
Proof.
  intros Hn Hi Hp Hs. destruct (unique_list_ok l) as (_ & U2 & U3).
  apply (sorted_unique _ zl_cmp_ok).
  - apply weak_sorted; auto.
  - apply isort_sorted, zl_cmp_ok.
  - etransitivity; [apply Permutation_sym, Hp|]. apply NoDup_Permutation; auto.
    intros x. rewrite Hi, U3. tauto.
Qed.

(** ** TikZ *)
Definition nlb (c : ascii) : bool := negb (Nat.eqb (nat_of_ascii c) 10).
Fixpoint onelb (s : string) : bool := match s with EmptyString => true | String c t => nlb c && onelb t end.
Lemma onelb_ok s : onelb s = true -> one_line s.
Proof.
  induction s as [|c s IH]; intros H; constructor; cbn in H; apply andb_prop in H; destruct H as [H1 H2].
  - unfold nlb in H1. apply negb_true_iff, Nat.eqb_neq in H1. auto.
  - apply IH; auto.
Qed.
Definition numch (c : ascii) : Prop := is_digit c = true \/ c = "-"%char.
Lemma str_Z_num z : alls numch (str_of_Z z).
Proof.
  destruct (Z.le_gt_cases 0 z) as [H|H].
  - eapply alls_impl; [|apply (str_Z_digits z H)]. intros c Hc. left. auto.
  - destruct z as [|p|p]; try lia. unfold str_of_Z. cbn [Z.to_int NilZero.string_of_int].
    constructor; [right; auto|]. eapply alls_impl; [|apply (str_Z_digits (Zpos p) ltac:(lia))]. intros c Hc. left. auto.
Qed.
Lemma str_Z_inj a b : str_of_Z a = str_of_Z b -> a = b.
Proof.
  unfold str_of_Z. intros H. apply (f_equal NilZero.int_of_string) in H.
  assert (N : forall z, NilZero.int_of_string (NilZero.string_of_int (Z.to_int z)) = Some (Z.to_int z)).
  { intros z. apply NilZero.isi; destruct z; cbn; intros E; inversion E; try (eapply DecimalPos.Unsigned.to_uint_nonnil; eassumption). }
  rewrite !N in H. inversion H as [E]. rewrite <- (DecimalZ.of_to a), <- (DecimalZ.of_to b), E. auto.
Qed.
Lemma split_at (P : ascii -> Prop) c a a' r r' : ~ P c -> alls P a -> alls P a' ->
  (a ++ String c r = a' ++ String c r')%string -> a = a' /\ r = r'.
Proof.
  intros Hc Ha. revert a'. induction Ha as [|x a Hx Ha IH]; intros a' Ha' E.
  - destruct Ha' as [|y a' Hy Ha']; cbn in E; inversion E; subst; auto. contradiction.
  - destruct Ha' as [|y a' Hy Ha']; cbn in E; inversion E; subst; [contradiction|].
    destruct (IH a' Ha' H1) as [-> ->]. auto.
Qed.
Lemma node_spec x y : node x y = tikz_node x y.
Proof. unfold node, tikz_node. replace (x * 5) with (5 * x) by lia. replace (- y * 5) with (- (5 * y)) by lia. auto. Qed.
Lemma app_inv_l a b c : (a ++ b = a ++ c)%string -> b = c.
Proof. induction a; cbn; intros H; auto. inversion H. auto. Qed.
Lemma not_m : ~ numch "m"%char.
Proof. intros [H|H]; discriminate. Qed.
Lemma node_inj x y x' y' : node x y = node x' y' -> x = x' /\ y = y'.
Proof.
  unfold node. intros H. apply app_inv_l in H.
  change ("mm, " ++ ?s)%string with (String "m" ("m, " ++ s)) in H.
  apply (split_at numch "m"%char) in H; auto using not_m, str_Z_num. destruct H as [H1 H2].
  change ("mm, " ++ str_of_Z (- y * 5) ++ "mm) {};")%string with ("mm, " ++ (str_of_Z (- y * 5) ++ String "m" "m) {};"))%string in H2.
  change ("m, " ++ (str_of_Z (- y * 5) ++ String "m" "m) {};") = "m, " ++ (str_of_Z (- y' * 5) ++ String "m" "m) {};"))%string in H2.
  apply app_inv_l in H2. apply (split_at numch "m"%char) in H2; auto using not_m, str_Z_num. destruct H2 as [H2 _].
  apply str_Z_inj in H1, H2. lia.
Qed.

Lemma has_box_cons r t y x : has_box (r :: t) y x <-> (y = 0 /\ 0 <= x < r) \/ has_box t (y - 1) x.
Proof.
  unfold has_box. rewrite zlen_cons. destruct (Z.eq_dec y 0) as [->|N].
  - change (part (r :: t) (Z.to_nat 0)) with r. pose proof (zlen_nonneg t). lia.
  - destruct (Z.lt_ge_cases y 0); [lia|].
    replace (Z.to_nat y) with (S (Z.to_nat (y - 1))) by lia. cbn [part nth].
    change (nth (Z.to_nat (y - 1)) t 0) with (part t (Z.to_nat (y - 1))). lia.
Qed.
Lemma tikz_rows_in p : forall y0 s, In s (tikz_rows y0 p) <-> exists y x, has_box p y x /\ s = node x (y + y0).
Proof.
  induction p as [|r t IH]; intros y0 s; cbn [tikz_rows].
  - split; [intros []|]. intros (y & x & [H _] & _). cbn in H. lia.
  - rewrite in_app_iff, in_map_iff, IH. split.
    + intros [(x & <- & Hx)|(y & x & Hb & ->)].
      * apply in_zrange in Hx. exists 0, x. split; [apply has_box_cons; left; lia|auto].
      * exists (y + 1), x. split; [apply has_box_cons; right; replace (y + 1 - 1) with y by lia; auto|f_equal; lia].
    + intros (y & x & Hb & ->). apply has_box_cons in Hb. destruct Hb as [[-> Hx]|Hb].
      * left. exists x. split; auto. apply in_zrange; auto.
      * right. exists (y - 1), x. split; auto. f_equal; lia.
Qed.
Lemma NoDup_app_intro {A} (a b : list A) : NoDup a -> NoDup b -> (forall x, In x a -> In x b -> False) -> NoDup (a ++ b).
Proof.
  intros Ha Hb H. induction Ha as [|x a Hx Ha IH]; cbn; auto. constructor.
  - rewrite in_app_iff. intros [|]; eauto. eapply H; eauto. left; auto.
  - apply IH. intros y Hy. apply H. right; auto.
Qed.
Lemma tikz_rows_nodup p : forall y0, NoDup (tikz_rows y0 p).
Proof.
  induction p as [|r t IH]; intros y0; cbn [tikz_rows]; [constructor|].
  apply NoDup_app_intro.
  - apply FinFun.Injective_map_NoDup; [|apply zrange_nodup]. intros a b E. apply node_inj in E. apply E.
  - apply IH.
  - intros s Hs Hs'. apply in_map_iff in Hs. destruct Hs as (x & <- & _).
    apply tikz_rows_in in Hs'. destruct Hs' as (y & x' & [Hb _] & E). apply node_inj in E. lia.
Qed.

Lemma num_one_line s : alls numch s -> one_line s.
Proof. apply alls_impl. intros c [H|H] E; [|subst; discriminate]. unfold is_digit in H. rewrite E in H. discriminate. Qed.
Lemma one_app a b : one_line a -> one_line b -> one_line (a ++ b).
Proof. apply alls_app. Qed.
Lemma str_Z_line z : one_line (str_of_Z z).
Proof. apply num_one_line, str_Z_num. Qed.
Lemma node_line x y : one_line (node x y).
Proof.
  unfold node. repeat apply one_app; try apply str_Z_line; apply onelb_ok; reflexivity.
Qed.
Lemma tuple_line p : one_line (str_of_tuple p).
Proof.
  assert (J : one_line (join ", " (map str_of_Z p))).
  { apply alls_join; [apply onelb_ok; reflexivity|]. apply Forall_forall. intros s Hs. apply in_map_iff in Hs.
    destruct Hs as (z & <- & _). apply str_Z_line. }
  assert (G : one_line ("(" ++ join ", " (map str_of_Z p) ++ ")")).
  { repeat apply one_app; auto; apply onelb_ok; reflexivity. }
  destruct p as [|a [|b t]]; [exact G| |exact G]. cbn [str_of_tuple].
  repeat apply one_app; try apply str_Z_line; apply onelb_ok; reflexivity.
Qed.
Lemma half_line k : one_line (str_half k).
Proof. unfold str_half. apply one_app; [apply str_Z_line|]. destruct (Z.even k); apply onelb_ok; reflexivity. Qed.

Lemma node_prefix x y : prefix "\node at " (tikz_node x y) = true.
Proof. reflexivity. Qed.
Lemma c57_env p : exists body,
  (forall l, In l body -> prefix "\begin" l = false /\ prefix "\end" l = false) /\
  latex p = join newline (["\begin{tikzpicture}"]%string ++ body ++ ["\end{tikzpicture}"]%string) /\
  latex_standalone p = join newline (["\documentclass{standalone}"; "\usepackage{tikz}"; "\begin{document}"; "\begin{tikzpicture}"]%string ++
                                     body ++ ["\end{tikzpicture}"; "\end{document}"]%string).
Proof.
  exists (["\usetikzlibrary{shapes.geometric}"%string;
       "\tikzstyle{every node}=[draw, minimum size=5mm, inner sep=0pt]"%string;
       ("\node[draw=none, anchor=south] at (" ++ str_half (zlen p) ++ "mm, 5mm) {$S_{" ++ str_of_tuple p ++ "}$};")%string] ++ tikz_rows 0 p).
  split; [|split].
  - intros l Hl. apply in_app_or in Hl. destruct Hl as [[<-|[<-|[<-|[]]]]|Hl]; try (split; reflexivity).
    revert Hl. generalize 0. induction p as [|r t IH]; intros y Hl; [destruct Hl|]. cbn [tikz_rows] in Hl. apply in_app_or in Hl. destruct Hl as [Hl|Hl]; [|apply (IH _ Hl)].
    apply in_map_iff in Hl. destruct Hl as (x & <- & _). split; reflexivity.
  - unfold latex, tikz_lines. rewrite <- !app_assoc. reflexivity.
  - unfold latex_standalone, tikz_lines. rewrite <- !app_assoc. reflexivity.
Qed.
Lemma tikz_draws p b : draws (join newline (tikz_lines p b)) p.
Proof.
  assert (K : exists h f, tikz_lines p b = h ++ tikz_rows 0 p ++ f /\
     Forall one_line h /\ Forall one_line f /\ (forall l, In l (h ++ f) -> prefix "\node at " l = false)).
  { assert (Hh : one_line ("\node[draw=none, anchor=south] at (" ++ str_half (zlen p) ++ "mm, 5mm) {$S_{" ++ str_of_tuple p ++ "}$};")).
    { repeat first [apply half_line | apply tuple_line | apply onelb_ok; reflexivity | apply one_app]. }
    unfold tikz_lines. destruct b.
    - eexists (_ :: _ :: _ :: _ :: _ :: _ :: _ :: nil), (_ :: _ :: nil).
      split; [reflexivity|]. split; [|split].
      + repeat (apply Forall_cons; [first [exact Hh | apply onelb_ok; reflexivity]|]); apply Forall_nil.
      + repeat (apply Forall_cons; [apply onelb_ok; reflexivity|]); apply Forall_nil.
      + intros l Hl. repeat (destruct Hl as [<-|Hl]; [reflexivity|]). destruct Hl.
    - eexists (_ :: _ :: _ :: _ :: nil), (_ :: nil).
      split; [reflexivity|]. split; [|split].
      + repeat (apply Forall_cons; [first [exact Hh | apply onelb_ok; reflexivity]|]); apply Forall_nil.
      + repeat (apply Forall_cons; [apply onelb_ok; reflexivity|]); apply Forall_nil.
      + intros l Hl. repeat (destruct Hl as [<-|Hl]; [reflexivity|]). destruct Hl. }
  destruct K as (h & f & E & Hh & Hf & Hn).
  assert (Nh : forall x y, ~ In (tikz_node x y) h).
  { intros x y I. specialize (Hn (tikz_node x y)). rewrite node_prefix in Hn. discriminate Hn. apply in_app_iff; auto. }
  assert (Nf : forall x y, ~ In (tikz_node x y) f).
  { intros x y I. specialize (Hn (tikz_node x y)). rewrite node_prefix in Hn. discriminate Hn. apply in_app_iff; auto. }
  assert (R : forall x y, In (tikz_node x y) (tikz_rows 0 p) <-> has_box p y x).
  { intros x y. rewrite tikz_rows_in. split.
    - intros (y' & x' & Hb & El). rewrite <- node_spec in El. apply node_inj in El. destruct El as [-> ->].
      rewrite Z.add_0_r. auto.
    - intros Hb. exists y, x. split; auto. rewrite Z.add_0_r, node_spec. auto. }
  exists (tikz_lines p b). rewrite E. split; [|split; [|split]].
  - split; [|auto]. rewrite !Forall_app. split; auto. split; auto. apply Forall_forall. intros s Hs.
    apply tikz_rows_in in Hs. destruct Hs as (y & x & _ & ->). apply node_line.
  - intros x y. rewrite !in_app_iff, R. specialize (Nh x y). specialize (Nf x y). tauto.
  - intros x y Hb. rewrite !count_occ_app. rewrite (proj1 (count_occ_not_In string_dec h _) (Nh x y)).
    rewrite (proj1 (count_occ_not_In string_dec f _) (Nf x y)).
    rewrite (proj1 (NoDup_count_occ' string_dec _) (tikz_rows_nodup p 0) _ (proj2 (R x y) Hb)). auto.
  - intros l Hl Hp. rewrite !in_app_iff in Hl. destruct Hl as [Hl|[Hl|Hl]].
    + rewrite Hn in Hp; [discriminate|apply in_app_iff; auto].
    + apply tikz_rows_in in Hl. destruct Hl as (y & x & _ & ->). exists x, (y + 0). apply node_spec.
    + rewrite Hn in Hp; [discriminate|apply in_app_iff; auto].
Qed.

(** ** matplotlib *)
Lemma patches_in p : forall y0 a b, In (a, b) (patches_from y0 p) <-> has_box p (- b - y0) a.
Proof.
  induction p as [|r t IH]; intros y0 a b; cbn [patches_from].
  - split; [intros []|]. intros [H _]. cbn in H. lia.
  - rewrite in_app_iff, in_map_iff, IH, has_box_cons. split.
    + intros [(x & E & Hx)|H].
      * apply in_zrange in Hx. inversion E; subst. left. lia.
      * right. replace (- b - y0 - 1) with (- b - (y0 + 1)) by lia. auto.
    + intros [[H1 H2]|H].
      * left. exists a. split; [f_equal; lia|apply in_zrange; auto].
      * right. replace (- b - (y0 + 1)) with (- b - y0 - 1) by lia. auto.
Qed.
Lemma patches_nodup p : forall y0, NoDup (patches_from y0 p).
Proof.
  induction p as [|r t IH]; intros y0; cbn [patches_from]; [constructor|].
  apply NoDup_app_intro.
  - apply FinFun.Injective_map_NoDup; [|apply zrange_nodup]. intros a b E. inversion E; auto.
  - apply IH.
  - intros [a b] H H'. apply in_map_iff in H. destruct H as (x & E & _). inversion E; subst.
    apply patches_in in H'. destruct H' as [H' _]. lia.
Qed.
Lemma fold_max_ge l : forall a, a <= fold_left Z.max l a /\ (forall x, In x l -> x <= fold_left Z.max l a).
Proof.
  induction l as [|y l IH]; intros a; cbn; [split; [lia|intros ? []]|].
  destruct (IH (Z.max a y)) as [H1 H2]. split; [lia|]. intros x [<-|H]; [lia|auto].
Qed.
Theorem c57_plot p : exists fig, plot_partition p = Ok fig /\ NoDup (fig_patches fig) /\
  (forall x y, In (x, - y) (fig_patches fig) <-> has_box p y x) /\
  (forall x y, In (x, y) (fig_patches fig) ->
     fst (fig_xlim fig) <= x /\ x + 1 <= snd (fig_xlim fig) /\ fst (fig_ylim fig) <= y /\ y + 1 <= snd (fig_ylim fig)).
Proof.
  assert (M : exists mx, (match p with [] => Ok 0 | _ => py_max p end) = Ok mx /\ forall x, In x p -> x <= mx).
  { destruct p as [|a t]; [exists 0; split; [auto|intros ? []]|]. cbn [py_max]. eexists. split; [reflexivity|].
    destruct (fold_max_ge t a) as [H1 H2]. intros x [<-|H]; auto. }
  destruct M as (mx & E & Hm). unfold plot_partition. rewrite E. cbn [bind]. eexists. split; [reflexivity|].
  cbn [fig_patches fig_xlim fig_ylim fst snd]. split; [apply patches_nodup|]. split.
  - intros x y. rewrite patches_in. replace (- - y - 0) with y by lia. tauto.
  - intros x y H. apply patches_in in H. destruct H as [H1 H2].
    assert (In (part p (Z.to_nat (- y - 0))) p) by (apply nth_In; unfold zlen in H1; lia).
    specialize (Hm _ H). lia.
Qed.

(** ** Printed boxes *)
Lemma srep3_len n : String.length (srep_nat "[ ]" n) = (3 * n)%nat.
Proof. induction n as [|n IH]; auto. cbn [srep_nat String.append String.length]. lia. Qed.
Lemma srep3_get n : forall j, (j < n)%nat ->
  String.get (3 * j) (srep_nat "[ ]" n) = Some "["%char /\
  String.get (3 * j + 1) (srep_nat "[ ]" n) = Some " "%char /\
  String.get (3 * j + 2) (srep_nat "[ ]" n) = Some "]"%char.
Proof.
  induction n as [|n IH]; intros j H; [lia|]. destruct j as [|j]; [cbn; auto|].
  replace (3 * S j)%nat with (S (S (S (3 * j)))) by lia. cbn [srep_nat String.append String.get Nat.add]. apply IH. lia.
Qed.
Theorem c57_print p : (forall a, In a p -> 0 <= a) -> Forall2 (fun a s => Z.of_nat (String.length s) = 3 * a /\
    forall j, 0 <= j < a -> char_at s (Z.to_nat (3 * j)) = Some "["%char /\
      char_at s (Z.to_nat (3 * j + 1)) = Some " "%char /\ char_at s (Z.to_nat (3 * j + 2)) = Some "]"%char)
  p (print_partition p).
Proof.
  intros Hp. unfold print_partition. induction p as [|a t IH]; cbn [map]; constructor.
  - assert (0 <= a) by (apply Hp; left; auto). unfold srep. split; [rewrite srep3_len; lia|]. intros j Hj.
    replace (Z.to_nat (3 * j)) with (3 * Z.to_nat j)%nat by lia.
    replace (Z.to_nat (3 * j + 1)) with (3 * Z.to_nat j + 1)%nat by lia.
    replace (Z.to_nat (3 * j + 2)) with (3 * Z.to_nat j + 2)%nat by lia.
    unfold char_at. apply srep3_get. lia.
  - apply IH. intros x Hx. apply Hp. right; auto.
Qed.
Theorem c57_yd p : (forall a, In a p -> 0 <= a) -> exists title rows,
  yd p = title :: rows /\ Forall2 (fun a s => shows s a a) p rows.
Proof.
  intros Hp. exists ("Young diagram for partition: " ++ str_of_list_sp p)%string, (map (srep "[]") p).
  split; [reflexivity|]. induction p as [|a t IH]; cbn [map]; constructor.
  - assert (0 <= a) by (apply Hp; left; auto).
    pose proof (row_shows a a ltac:(lia)) as R. replace (a - a) with 0 in R by lia.
    change (srep "  " 0) with EmptyString in R. rewrite sapp_nil in R. auto.
  - apply IH. intros x Hx. apply Hp. right; auto.
Qed.
