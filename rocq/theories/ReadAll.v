(** What toSchur accepts: the whole text is read. *)

From Coq Require Import ZArith List Lia Bool String Ascii DecimalString.
From Verif Require Import Py ModelPoly ModelStr ModelParse SpecMisc Spec ParseFacts.
Import ListNotations.
Open Scope Z_scope.

Lemma brackets_app a b : brackets (a ++ b) = (brackets a ++ brackets b)%string.
Proof.
  induction a as [|c a IH]; cbn [append brackets]; auto.
  destruct (Ascii.eqb c "[" || Ascii.eqb c "]"); cbn [append]; rewrite IH; auto.
Qed.
Lemma brackets_digits s : alls (fun c => is_digit c = true) s -> brackets s = ""%string.
Proof.
  induction 1 as [|c s Hc Hs IH]; cbn [brackets]; auto.
  destruct (Ascii.eqb_spec c "["); [subst; discriminate|]. destruct (Ascii.eqb_spec c "]"); [subst; discriminate|]. auto.
Qed.
Lemma brackets_drop s : brackets (drop_S s) = brackets s.
Proof.
  induction s as [|c s IH]; cbn [drop_S brackets]; auto. destruct (Ascii.eqb_spec c "S").
  - subst. cbn. exact IH.
  - cbn [brackets]. rewrite IH. auto.
Qed.
Lemma alls_drop s : alls list_char (drop_S s) -> alls (fun c => list_char c \/ c = "S"%char) s.
Proof.
  induction s as [|c s IH]; cbn [drop_S]; [constructor|]. destruct (Ascii.eqb_spec c "S"); intros H.
  - constructor; auto.
  - inversion H; subst. constructor; auto.
Qed.
Lemma take_digits_split s : forall d r, take_digits s = (d, r) -> s = (d ++ r)%string /\ alls (fun c => is_digit c = true) d.
Proof.
  induction s as [|c s IH]; intros d r; cbn [take_digits].
  - intros E. inversion E; subst. split; [reflexivity|constructor].
  - destruct (is_digit c) eqn:Ec.
    + destruct (take_digits s) as [a b]. intros E. inversion E; subst. destruct (IH _ _ eq_refl) as [-> H].
      split; [reflexivity|constructor; auto].
    + intros E. inversion E; subst. split; [reflexivity|constructor].
Qed.
Lemma int_literal_nonneg d z : int_literal d = Some z -> 0 <= z.
Proof.
  unfold int_literal. destruct (NilEmpty.uint_of_string d) as [u|]; [|discriminate]. cbn zeta.
  destruct ((Z.of_uint u =? 0) || _); [|discriminate]. destruct d; [discriminate|]. intros E. inversion E; subst. unfold Z.of_uint. lia.
Qed.
Lemma list_char_digit c : is_digit c = true -> list_char c.
Proof. intros H. left. exact H. Qed.

Definition reads (s : string) (l : string) (r : string) : Prop :=
  exists u, s = (u ++ r)%string /\ alls list_char u /\ brackets u = l.

Lemma parse_val_int f c t : c <> "["%char ->
  parse_val (S f) (String c t) =
  (let '(d, r) := take_digits (String c t) in match int_literal d with Some z => Some (PInt z, r) | None => None end).
Proof. intros H. destruct c as [[] [] [] [] [] [] [] []]; try reflexivity. congruence. Qed.

Lemma parse_items_cases f s l r : parse_items (S f) s = Some (l, r) ->
  exists v, (parse_val f s = Some (v, String "]"%char r) /\ l = [v]) \/
            (parse_val f s = Some (v, String ","%char (String "]"%char r)) /\ l = [v]) \/
            (exists r0 l', parse_val f s = Some (v, String ","%char r0) /\ parse_items f r0 = Some (l', r) /\ l = v :: l').
Proof.
  cbn [parse_items]. destruct (parse_val f s) as [[v q]|]; [|discriminate]. intros E. exists v. destruct q as [|c q]; [discriminate|].
  destruct (ascii_dec c "]"%char) as [->|H1]; [inversion E; subst; left; auto|].
  destruct (ascii_dec c ","%char) as [->|H2].
  - destruct q as [|d q]; [right; right; destruct (parse_items f "") as [[l' r']|] eqn:Ei; [|discriminate]; inversion E; subst; eauto|].
    destruct (ascii_dec d "]"%char) as [->|H3]; [inversion E; subst; right; left; auto|].
    assert (E2 : match parse_items f (String d q) with Some (l, r') => Some (v :: l, r') | None => None end = Some (l, r)).
    { destruct d as [[] [] [] [] [] [] [] []]; try exact E. congruence. }
    destruct (parse_items f (String d q)) as [[l' r']|] eqn:Ei; [|discriminate]. inversion E2; subst. right; right. eauto.
  - exfalso. destruct c as [[] [] [] [] [] [] [] []]; try discriminate; congruence.
Qed.

Lemma brackets_join l : brackets (join "," l) = brackets (join "" l).
Proof.
  induction l as [|x l IH]; cbn [join]; auto. destruct l as [|y l]; auto.
  rewrite !brackets_app, IH. reflexivity.
Qed.
Lemma alls_one (c : ascii) : list_char c -> alls list_char (String c EmptyString).
Proof. intros H. constructor; [auto|constructor]. Qed.

Lemma parse_reads f :
  (forall s v r, parse_val f s = Some (v, r) -> reads s (brackets (str_of_val v)) r) /\
  (forall s l r, parse_items f s = Some (l, r) -> reads s (brackets (join "," (map str_of_val l) ++ "]")) r).
Proof.
  induction f as [|f [IHv IHi]]; [split; intros; discriminate|]. split.
  - intros s v r. destruct s as [|c t]; [discriminate|]. destruct (ascii_dec c "["%char) as [->|Hc].
    + assert (Hd : (exists t', t = String "]"%char t') \/ (forall t', t <> String "]"%char t')).
      { destruct t as [|d t]; [right; discriminate|]. destruct (ascii_dec d "]"%char) as [->|Hd]; [left; eauto|right; congruence]. }
      destruct Hd as [[t' ->]|Ht].
      * intros E. inversion E; subst. exists "[]"%string.
        split; [reflexivity|]. split; [|reflexivity]. constructor; [right; left; auto|]. apply alls_one. right; right; left. auto.
      * rewrite parse_open by exact Ht. destruct (parse_items f t) as [[l q]|] eqn:E; [|discriminate]. intros E'. inversion E'; subst.
        destruct (IHi _ _ _ E) as (u & -> & Hu & Eu). exists (String "["%char u). split; [reflexivity|]. split.
        -- constructor; auto. right; left. auto.
        -- cbn [str_of_val]. rewrite brackets_app, <- Eu. reflexivity.
    + rewrite parse_val_int by auto. destruct (take_digits (String c t)) as [d q] eqn:Ed. destruct (int_literal d) as [z|] eqn:Ez; [|discriminate].
      intros E. inversion E; subst. destruct (take_digits_split _ _ _ Ed) as [E1 E2]. exists d. split; auto. split.
      * eapply alls_impl; [|exact E2]. intros x. apply list_char_digit.
      * cbn [str_of_val]. rewrite (brackets_digits d) by auto. symmetry. apply brackets_digits. apply str_Z_digits. eapply int_literal_nonneg; eauto.
  - intros s l r E. apply parse_items_cases in E. destruct E as [v [[E ->]|[[E ->]|(r0 & l' & E & Ei & ->)]]].
    + destruct (IHv _ _ _ E) as (u & -> & Hu & Eu). exists (u ++ "]")%string. split; [rewrite sapp_assoc; reflexivity|]. split.
      * apply alls_app; auto. apply alls_one. right; right; left; auto.
      * cbn [map join]. rewrite !brackets_app, Eu. reflexivity.
    + destruct (IHv _ _ _ E) as (u & -> & Hu & Eu). exists (u ++ ",]")%string. split; [rewrite sapp_assoc; reflexivity|]. split.
      * apply alls_app; auto. constructor; [right; right; right; auto|]. apply alls_one. right; right; left; auto.
      * cbn [map join]. rewrite !brackets_app, Eu. reflexivity.
    + destruct (IHv _ _ _ E) as (u & -> & Hu & Eu). destruct (IHi _ _ _ Ei) as (u' & -> & Hu' & Eu').
      exists (u ++ String ","%char u')%string. split; [rewrite sapp_assoc; reflexivity|]. split.
      * apply alls_app; auto. constructor; auto. right; right; right; auto.
      * rewrite brackets_app, Eu. cbn [brackets Ascii.eqb]. change (Ascii.eqb "," "[" || Ascii.eqb "," "]") with false. cbn iota. rewrite Eu'.
        destruct l' as [|w l'].
        -- exfalso. destruct f as [|f]; [discriminate|]. apply parse_items_cases in Ei. destruct Ei as [w [[_ Ew]|[[_ Ew]|(? & ? & _ & _ & Ew)]]]; discriminate.
        -- cbn [map]. change (join "," (str_of_val v :: str_of_val w :: map str_of_val l'))
             with (str_of_val v ++ "," ++ join "," (str_of_val w :: map str_of_val l'))%string.
           rewrite !brackets_app. rewrite !sapp_assoc. reflexivity.
Qed.

Lemma toSchur_reads s v : toSchur s = Ok v ->
  alls (fun c => list_char c \/ c = "S"%char) (decode s) /\ brackets (decode s) = brackets (schur_str v).
Proof.
  unfold toSchur, literal_eval. destruct (parse_val _ _) as [[w r]|] eqn:E; [|discriminate].
  destruct r as [|c r]; [|discriminate]. destruct w as [z|l]; [discriminate|]. intros H. inversion H; subst. clear H.
  destruct (proj1 (parse_reads _) _ _ _ E) as (u & E1 & Hu & Eu). rewrite sapp_nil in E1. subst u. split; [apply alls_drop; auto|].
  rewrite <- brackets_drop, Eu. reflexivity.
Qed.
