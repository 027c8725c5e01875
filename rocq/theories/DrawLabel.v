(** Labels of drawings. *)

From Coq Require Import ZArith List Lia Bool String Ascii DecimalString DecimalZ DecimalFacts.
From Verif Require Import Py PyFacts ModelPoly ModelStr ModelMisc ModelParse ModelArith ModelDraw ParseFacts Spec SpecMisc SpecArith ApiMisc ApiDraw.
Import ListNotations.
Open Scope Z_scope.

Lemma numeral_num c : numch c -> numeral c = true.
Proof. unfold numeral. intros [->| ->]; [reflexivity|apply orb_true_r]. Qed.
Lemma words_run s c t : alls numch s -> numeral c = false -> words (s ++ String c t) = s :: words t.
Proof.
  intros Hs Hc. induction Hs as [|d s Hd Hs IH]; cbn [String.append words]; [rewrite Hc; reflexivity|]. rewrite (numeral_num d Hd), IH. reflexivity.
Qed.
Lemma read_Z z : NilZero.int_of_string (str_of_Z z) = Some (Z.to_int z).
Proof. unfold str_of_Z. apply NilZero.isi; destruct z; cbn; intros E; inversion E; try (eapply DecimalPos.Unsigned.to_uint_nonnil; eassumption). Qed.
Lemma numbers_run z c t : numeral c = false -> numbers (str_of_Z z ++ String c t) = z :: numbers t.
Proof.
  intros Hc. unfold numbers. rewrite words_run by (auto using str_Z_num). cbn [flat_map]. rewrite read_Z, DecimalZ.of_to. reflexivity.
Qed.
Lemma numbers_skip c t : numeral c = false -> numbers (String c t) = numbers t.
Proof. intros Hc. unfold numbers. cbn [words]. rewrite Hc. reflexivity. Qed.
Lemma sapp_assoc3 (a b c : string) : ((a ++ b) ++ c = a ++ (b ++ c))%string.
Proof. induction a as [|x a IH]; cbn; [reflexivity|]. rewrite IH. reflexivity. Qed.
Lemma numbers_join l c t : numeral c = false -> numbers (join ", " (map str_of_Z l) ++ String c t) = l ++ numbers t.
Proof.
  intros Hc. induction l as [|a l IH]; [cbn [map join String.append]; apply numbers_skip; auto|].
  destruct l as [|b l]; [cbn [map join app]; apply numbers_run; auto|].
  change (join ", " (map str_of_Z (a :: b :: l))) with (str_of_Z a ++ ", " ++ join ", " (map str_of_Z (b :: l)))%string.
  rewrite !sapp_assoc3. change (", " ++ ?s)%string with (String "," (String " " s)). rewrite numbers_run by reflexivity. rewrite numbers_skip by reflexivity. rewrite IH. reflexivity.
Qed.
Lemma numbers_tuple p : numbers (str_of_tuple p) = p.
Proof.
  assert (G : numbers ("(" ++ join ", " (map str_of_Z p) ++ ")") = p).
  { change ("(" ++ ?s)%string with (String "(" s). rewrite numbers_skip by reflexivity. rewrite numbers_join by reflexivity. apply List.app_nil_r. }
  destruct p as [|a [|b t]]; [exact G| |exact G]. cbn [str_of_tuple]. change ("(" ++ ?s)%string with (String "(" s). rewrite numbers_skip by reflexivity.
  change ",)"%string with (String "," ")"). rewrite numbers_run by reflexivity. reflexivity.
Qed.
Lemma numbers_title p : numbers ("Young diagram for partition: " ++ str_of_list_sp p) = p.
Proof.
  unfold str_of_list_sp. cbn [String.append]. repeat (rewrite numbers_skip by reflexivity). rewrite numbers_join by reflexivity. apply List.app_nil_r.
Qed.
Lemma half_decimal k : 0 <= k -> decimal (str_half k) (25 * k).
Proof.
  intros Hk. unfold decimal, str_half. destruct (Z.even k) eqn:E.
  - apply Z.even_spec in E. destruct E as (h & ->). exists (5 * h), 0. split; [lia|]. split; [|lia].
    replace (2 * h * 5 / 2) with (5 * h); [reflexivity|]. symmetry. replace (2 * h * 5) with (5 * h * 2) by lia. apply Z.div_mul. lia.
  - assert (O : Z.odd k = true) by (rewrite <- Z.negb_even, E; reflexivity). apply Z.odd_spec in O. destruct O as (h & ->). exists (5 * h + 2), 5. split; [lia|]. split; [|lia].
    replace ((2 * h + 1) * 5 / 2) with (5 * h + 2); [reflexivity|]. apply (Z.div_unique _ 2 _ 1); lia.
Qed.
Lemma names_tuple p : names ("$S_{" ++ str_of_tuple p ++ "}$") p.
Proof. exists (str_of_tuple p). split; [reflexivity|apply numbers_tuple]. Qed.
Lemma filter_rows p : forall y, filter (prefix "\node[") (tikz_rows y p) = [].
Proof.
  induction p as [|r t IH]; intros y; [reflexivity|]. cbn [tikz_rows]. rewrite filter_app, IH, List.app_nil_r. induction (zrange 0 r) as [|x l IHl]; [reflexivity|exact IHl].
Qed.
Lemma tikz_line_one p b : lines_of (join newline (tikz_lines p b)) (tikz_lines p b).
Proof.
  split; [|reflexivity]. apply Forall_forall. intros s Hs.
  assert (Hh : one_line ("\node[draw=none, anchor=south] at (" ++ str_half (zlen p) ++ "mm, 5mm) {$S_{" ++ str_of_tuple p ++ "}$};")).
  { repeat first [apply half_line | apply tuple_line | apply onelb_ok; reflexivity | apply one_app]. }
  assert (HR : In s (tikz_rows 0 p) -> one_line s) by (intros H; apply tikz_rows_in in H; destruct H as (y & x & _ & ->); apply node_line).
  unfold tikz_lines in Hs. rewrite !in_app_iff in Hs. destruct Hs as [Hs|[Hs|[Hs|[Hs|Hs]]]]; auto.
  - destruct b; [|destruct Hs]. repeat (destruct Hs as [<-|Hs]; [apply onelb_ok; reflexivity|]). destruct Hs.
  - repeat (destruct Hs as [<-|Hs]; [first [exact Hh|apply onelb_ok; reflexivity]|]). destruct Hs.
  - repeat (destruct Hs as [<-|Hs]; [apply onelb_ok; reflexivity|]). destruct Hs.
  - destruct b; [|destruct Hs]. repeat (destruct Hs as [<-|Hs]; [apply onelb_ok; reflexivity|]). destruct Hs.
Qed.
Lemma tikz_label p b : label_at (tikz_lines p b) p (25 * zlen p).
Proof.
  exists (str_half (zlen p)), ("$S_{" ++ str_of_tuple p ++ "}$")%string. split; [|split; [apply half_decimal, zlen_nonneg|apply names_tuple]].
  unfold tikz_lines. rewrite !filter_app, filter_rows. rewrite sapp_assoc3, sapp_assoc3. destruct b; reflexivity.
Qed.
Theorem c57_label p : (exists L, lines_of (latex p) L /\ label_at L p (25 * zlen p)) /\
  (exists L, lines_of (latex_standalone p) L /\ label_at L p (25 * zlen p)).
Proof. split; eexists; (split; [apply tikz_line_one|apply tikz_label]). Qed.
Theorem c57_plot_label p : exists fig, plot_partition p = Ok fig /\ names (fig_label fig) p /\
  snd (fig_label_at2 fig) = 2 /\ (forall a, In a p -> a <= fst (fig_label_at2 fig)) /\ (p <> [] -> In (fst (fig_label_at2 fig)) p).
Proof.
  assert (M : exists mx, (match p with [] => Ok 0 | _ => py_max p end) = Ok mx /\ (forall x, In x p -> x <= mx) /\ (p <> [] -> In mx p)).
  { destruct p as [|a t]; [exists 0; split; [auto|split; [intros ? []|congruence]]|]. cbn [py_max]. eexists. split; [reflexivity|].
    destruct (fold_max_ge t a) as [H1 H2]. split; [intros x [<-|H]; auto|]. intros _.
    assert (G : forall l b, In (fold_left Z.max l b) (b :: l)).
    { clear. induction l as [|y l IH]; intros b; cbn [fold_left]; [left; reflexivity|]. destruct (IH (Z.max b y)) as [<-|H]; [|right; right; exact H].
      destruct (Z.max_spec b y) as [[_ ->]|[_ ->]]; [right; left|left]; reflexivity. }
    apply G. }
  destruct M as (mx & E & H1 & H2). unfold plot_partition. rewrite E. cbn [bind]. eexists. split; [reflexivity|]. cbn [fig_label fig_label_at2 fst snd].
  split; [apply names_tuple|]. auto.
Qed.
Theorem c57_yd' p : (forall a, In a p -> 0 <= a) -> exists title rows,
  yd p = title :: rows /\ numbers title = p /\ Forall2 (fun a s => shows s a a) p rows.
Proof.
  intros Hp. destruct (c57_yd p Hp) as (t & r & E & H). exists t, r. split; [exact E|]. split; [|exact H].
  unfold yd in E. inversion E. apply numbers_title.
Qed.
