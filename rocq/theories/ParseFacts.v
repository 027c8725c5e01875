(** Reading back what was printed. *)

From Coq Require Import ZArith List Lia Bool String Ascii DecimalString DecimalZ DecimalFacts.
From Verif Require Import Py ModelPoly ModelStr ModelParse SpecMisc Spec.
Import ListNotations.
Open Scope Z_scope.

Section ValInd.
Variable P : pyval -> Prop.
Hypothesis HI : forall z, P (PInt z).
Hypothesis HL : forall l, Forall P l -> P (PList l).
Fixpoint pyval_ind2 (v : pyval) : P v :=
  match v with
  | PInt z => HI z
  | PList l => HL l ((fix go l := match l return Forall P l with [] => Forall_nil _ | x :: t => Forall_cons _ (pyval_ind2 x) (go t) end) l)
  end.
End ValInd.

(** all integers in the value are nonnegative *)


Lemma sapp_assoc a b c : ((a ++ b) ++ c = a ++ (b ++ c))%string.
Proof. induction a as [|x a IH]; simpl; auto. rewrite IH. auto. Qed.
Lemma sapp_nil a : (a ++ "" = a)%string.
Proof. induction a as [|x a IH]; simpl; auto. rewrite IH. auto. Qed.
Lemma slen_app a b : String.length (a ++ b) = (String.length a + String.length b)%nat.
Proof. induction a; simpl; auto. Qed.


Lemma alls_app P a b : alls P a -> alls P b -> alls P (a ++ b).
Proof. induction 1; simpl; auto. intros. constructor; auto. Qed.
Lemma alls_impl (P Q : ascii -> Prop) s : (forall c, P c -> Q c) -> alls P s -> alls Q s.
Proof. intros H. induction 1; constructor; auto. Qed.
Lemma alls_join P sep l : alls P sep -> Forall (alls P) l -> alls P (join sep l).
Proof.
  intros Hs H. induction H as [|x l Hx Hl IH]; [constructor|]. cbn [join]. destruct l; auto.
  apply alls_app; auto. apply alls_app; auto.
Qed.

(** ** numbers *)
Lemma string_of_uint_digits d : alls (fun c => is_digit c = true) (NilEmpty.string_of_uint d).
Proof. induction d; cbn [NilEmpty.string_of_uint]; constructor; auto. Qed.
Lemma str_Z_uint z : 0 <= z -> exists d, Z.to_int z = Decimal.Pos d /\ d <> Decimal.Nil /\ Z.of_uint d = z /\
  str_of_Z z = NilEmpty.string_of_uint d.
Proof.
  intros H. destruct z as [|p|p]; [| |lia].
  - exists (Decimal.D0 Decimal.Nil). repeat split; try discriminate.
  - exists (Pos.to_uint p). assert (N : Pos.to_uint p <> Decimal.Nil).
    { apply DecimalPos.Unsigned.to_uint_nonnil. }
    split; [reflexivity|]. split; auto. split.
    + pose proof (DecimalZ.of_to (Zpos p)) as E. exact E.
    + unfold str_of_Z. cbn [Z.to_int NilZero.string_of_int]. unfold NilZero.string_of_uint.
      destruct (Pos.to_uint p); congruence || reflexivity.
Qed.
Lemma str_Z_digits z : 0 <= z -> alls (fun c => is_digit c = true) (str_of_Z z) /\ str_of_Z z <> EmptyString.
Proof.
  intros H. destruct (str_Z_uint z H) as (d & _ & Hd & _ & E). rewrite E. split; [apply string_of_uint_digits|].
  destruct d; simpl; congruence.
Qed.
Lemma int_literal_str z : 0 <= z -> int_literal (str_of_Z z) = Some z.
Proof.
  intros H. destruct (str_Z_uint z H) as (d & _ & Hd & Ez & E). unfold int_literal.
  rewrite E at 1. rewrite NilEmpty.usu. cbn zeta. rewrite Ez. rewrite String.eqb_refl, orb_true_r.
  destruct (str_Z_digits z H) as [_ Hn]. destruct (str_of_Z z); congruence.
Qed.

Definition no_digit (s : string) : Prop := match s with String c _ => is_digit c = false | EmptyString => True end.
Lemma take_digits_app a r : alls (fun c => is_digit c = true) a -> no_digit r -> take_digits (a ++ r) = (a, r).
Proof.
  intros H Hr. induction H as [|c s Hc Hs IH]; cbn [append take_digits].
  - destruct r; cbn [take_digits]; auto. cbn in Hr. rewrite Hr. auto.
  - rewrite Hc, IH. auto.
Qed.

Lemma parse_int f z r : 0 <= z -> no_digit r -> parse_val (S f) (str_of_Z z ++ r) = Some (PInt z, r).
Proof.
  intros H Hr. destruct (str_Z_digits z H) as [D N].
  assert (E : take_digits (str_of_Z z ++ r) = (str_of_Z z, r)) by (apply take_digits_app; auto).
  destruct (str_of_Z z) as [|c s] eqn:Es; [congruence|]. inversion D; subst.
  assert (Hc : c <> "["%char) by (intros ->; discriminate).
  assert (G : parse_val (S f) (String c s ++ r) = let '(d, r0) := take_digits (String c s ++ r) in
     match int_literal d with Some z => Some (PInt z, r0) | None => None end).
  { cbn [append]. clear -Hc. destruct c as [[] [] [] [] [] [] [] []]; try reflexivity. congruence. }
  rewrite G, E, <- Es, int_literal_str by auto. auto.
Qed.

Lemma str_val_bracket l : str_of_val (PList l) = String "["%char (join "," (map str_of_val l) ++ "]")%string.
Proof. reflexivity. Qed.
Lemma str_val_nonempty v : val_nonneg v = true -> exists c s, str_of_val v = String c s /\ c <> "]"%char.
Proof.
  destruct v as [z|l]; cbn [val_nonneg]; intros H.
  - apply Z.leb_le in H. destruct (str_Z_digits z H) as [D N]. cbn [str_of_val]. destruct (str_of_Z z) as [|c s]; [congruence|].
    exists c, s. split; auto. inversion D; subst. intros ->. discriminate.
  - exists "["%char. eexists. split; [reflexivity|]. discriminate.
Qed.

Lemma parse_open f t : (forall r, t <> String "]"%char r) ->
  parse_val (S f) (String "["%char t) = match parse_items f t with Some (l, r) => Some (PList l, r) | None => None end.
Proof.
  intros H. destruct t as [|c t]; [reflexivity|].
  destruct (ascii_dec c "]"%char) as [->|Hc]; [exfalso; apply (H t); auto|].
  destruct c as [[] [] [] [] [] [] [] []]; try reflexivity. congruence.
Qed.

(** *** items *)
Lemma parse_items_close f s v r : parse_val f s = Some (v, String "]"%char r) -> parse_items (S f) s = Some ([v], r).
Proof. intros E. cbn [parse_items]. rewrite E. reflexivity. Qed.
Lemma parse_items_more f s v r : parse_val f s = Some (v, String ","%char r) -> (forall r', r <> String "]"%char r') ->
  parse_items (S f) s = match parse_items f r with Some (l, r') => Some (v :: l, r') | None => None end.
Proof.
  intros E H. cbn [parse_items]. rewrite E. destruct r as [|c r]; [reflexivity|].
  destruct (ascii_dec c "]"%char) as [->|Hc]; [exfalso; apply (H r); auto|].
  destruct c as [[] [] [] [] [] [] [] []]; try reflexivity. congruence.
Qed.

Lemma parse_ok v : val_nonneg v = true -> forall f r, (2 * String.length (str_of_val v) <= f)%nat -> no_digit r ->
  parse_val f (str_of_val v ++ r) = Some (v, r).
Proof.
  induction v as [z|l IH] using pyval_ind2; cbn [val_nonneg]; intros H f r Hf Hr.
  - apply Z.leb_le in H. cbn [str_of_val] in *. destruct f as [|f].
    + destruct (str_Z_digits z H) as [_ N]. destruct (str_of_Z z); [congruence|]. cbn [String.length] in Hf. lia.
    + apply parse_int; auto.
  - rewrite str_val_bracket in Hf |- *. cbn [String.length] in Hf. rewrite slen_app in Hf. cbn [String.length] in Hf.
    destruct f as [|f]; [lia|].
    change ((String "[" (join "," (map str_of_val l) ++ "]") ++ r)%string)
      with (String "["%char ((join "," (map str_of_val l) ++ "]") ++ r)%string).
    rewrite sapp_assoc. cbn [append].
    destruct l as [|v l]; [reflexivity|].
    assert (G : forall w l', Forall (fun v => val_nonneg v = true -> forall f r, (2 * String.length (str_of_val v) <= f)%nat -> no_digit r ->
        parse_val f (str_of_val v ++ r) = Some (v, r)) (w :: l') -> forallb val_nonneg (w :: l') = true ->
      forall f', (2 * String.length (join "," (map str_of_val (w :: l'))) + 1 <= f')%nat ->
      parse_items f' (join "," (map str_of_val (w :: l')) ++ String "]"%char r) = Some (w :: l', r)).
    { intros w l'. revert w. induction l' as [|w' l' IHl]; intros w HF Hn f' Hf'.
      - cbn [map join]. cbn [map join] in Hf'. inversion HF as [|? ? Hw _]; subst. cbn [forallb] in Hn. apply andb_true_iff in Hn.
        destruct f' as [|f']; [lia|]. apply parse_items_close. apply Hw; [tauto|lia|reflexivity].
      - change (map str_of_val (w :: w' :: l')) with (str_of_val w :: map str_of_val (w' :: l')) in *.
        set (t := map str_of_val (w' :: l')) in *.
        assert (Ej : join "," (str_of_val w :: t) = (str_of_val w ++ "," ++ join "," t)%string) by reflexivity.
        rewrite Ej in Hf' |- *. rewrite !slen_app in Hf'. cbn [String.length] in Hf'. rewrite !sapp_assoc.
        inversion HF as [|? ? Hw HF']; subst. change (forallb val_nonneg (w :: w' :: l')) with (val_nonneg w && forallb val_nonneg (w' :: l')) in Hn.
        apply andb_true_iff in Hn. destruct Hn as [Hn1 Hn2]. destruct f' as [|f']; [lia|].
        rewrite (parse_items_more f' _ w (join "," t ++ String "]" r)).
        + unfold t in *. rewrite (IHl w' HF' Hn2) by lia. reflexivity.
        + apply (Hw Hn1 f'); [lia|reflexivity].
        + intros r'. cbn [forallb] in Hn2. apply andb_true_iff in Hn2. destruct (str_val_nonempty w') as (c & s & Ec & Hc); [tauto|].
          intros E. unfold t in E. cbn [map] in E.
          assert (E2 : exists u, (join "," (str_of_val w' :: map str_of_val l') ++ String "]" r)%string = String c u).
          { destruct (map str_of_val l'); cbn [join]; rewrite Ec; eexists; reflexivity. }
          destruct E2 as [u E2]. rewrite E2 in E. congruence. }
    rewrite parse_open.
    + rewrite (G v l IH H f) by lia. auto.
    + intros r'. cbn [forallb] in H. apply andb_true_iff in H. destruct (str_val_nonempty v) as (c & s & Ec & Hc); [tauto|].
      intros E. cbn [map] in E.
      assert (E2 : exists u, (join "," (str_of_val v :: map str_of_val l) ++ String "]" r)%string = String c u).
      { destruct (map str_of_val l); cbn [join]; rewrite Ec; eexists; reflexivity. }
      destruct E2 as [u E2]. rewrite E2 in E. congruence.
Qed.

(** ** encoding *)
Definition plain (c : ascii) : Prop := is_digit c = true \/ c = "["%char \/ c = ","%char \/ c = "]"%char.
Lemma val_plain v : val_nonneg v = true -> alls plain (str_of_val v).
Proof.
  induction v as [z|l IH] using pyval_ind2; cbn [val_nonneg]; intros H.
  - apply Z.leb_le in H. cbn [str_of_val]. eapply alls_impl; [|apply (str_Z_digits z H)]. unfold plain. auto.
  - rewrite str_val_bracket. constructor; [unfold plain; auto|]. apply alls_app; [|apply alls_cons; [unfold plain; auto|apply alls_nil]].
    apply alls_join; [apply alls_cons; [unfold plain; auto|apply alls_nil]|]. apply Forall_forall. intros x Hx. apply in_map_iff in Hx.
    destruct Hx as (v & <- & Hv). rewrite Forall_forall in IH. apply IH; auto. rewrite forallb_forall in H. auto.
Qed.
Lemma digit_cases c : is_digit c = true -> In c ["0"; "1"; "2"; "3"; "4"; "5"; "6"; "7"; "8"; "9"]%char.
Proof. destruct c as [[] [] [] [] [] [] [] []]; intros H; try discriminate H; simpl; tauto. Qed.
Lemma plain_cases c : plain c -> In c ["0"; "1"; "2"; "3"; "4"; "5"; "6"; "7"; "8"; "9"; "["; ","; "]"]%char.
Proof. intros [H|[->|[->| ->]]]; [apply digit_cases in H; simpl in *; tauto|simpl; tauto ..]. Qed.
Lemma decode_encode s : alls plain s -> decode (encode s) = s.
Proof.
  unfold decode, encode. induction 1 as [|c s Hc _ IH]; cbn [smap]; auto. rewrite IH. f_equal.
  apply plain_cases in Hc. simpl in Hc. repeat (destruct Hc as [<-|Hc]; [reflexivity|]). destruct Hc.
Qed.
Lemma drop_S_plain s : alls plain s -> drop_S s = s.
Proof.
  induction 1 as [|c s Hc _ IH]; cbn [drop_S]; auto. rewrite IH. apply plain_cases in Hc. simpl in Hc.
  repeat (destruct Hc as [<-|Hc]; [reflexivity|]). destruct Hc.
Qed.

Lemma toSchur_symbol l : forallb val_nonneg l = true -> toSchur (symbol_str (PList l)) = Ok (PList l).
Proof.
  intros H. unfold toSchur, symbol_str, schur_str.
  assert (P : alls plain (str_of_val (PList l))) by (apply val_plain; auto).
  assert (E : drop_S (decode (encode ("S" ++ str_of_val (PList l)))) = str_of_val (PList l)).
  { change (encode ("S" ++ str_of_val (PList l))) with (String "S" (encode (str_of_val (PList l)))).
    change (decode (String "S" (encode (str_of_val (PList l))))) with (String "S" (decode (encode (str_of_val (PList l))))).
    rewrite decode_encode by auto. cbn [drop_S]. change (Ascii.eqb "S" "S") with true. cbn iota. apply drop_S_plain; auto. }
  rewrite E. unfold literal_eval.
  pose proof (parse_ok (PList l) H (2 * String.length (str_of_val (PList l)) + 2) ""%string ltac:(lia) I) as Q.
  rewrite sapp_nil in Q. rewrite Q. reflexivity.
Qed.
Lemma symbol_str_inj l l' : forallb val_nonneg l = true -> forallb val_nonneg l' = true ->
  symbol_str (PList l) = symbol_str (PList l') -> l = l'.
Proof.
  intros H H' E. pose proof (toSchur_symbol l H) as E1. pose proof (toSchur_symbol l' H') as E2. rewrite E in E1. congruence.
Qed.

Lemma symbol_ident v : val_nonneg v = true -> exists t, symbol_str v = String "S"%char t /\ alls ident_char t.
Proof.
  intros H. exists (encode (str_of_val v)). split; [reflexivity|]. pose proof (val_plain v H) as P. unfold encode.
  induction P as [|c s Hc _ IH]; cbn [smap]; constructor; auto. apply plain_cases in Hc. simpl in Hc. unfold ident_char.
  repeat (destruct Hc as [<-|Hc]; [cbv; lia|]). destruct Hc.
Qed.

(** the symbols of ModelStr.v *)
Lemma str_list_val l : str_of_list l = str_of_val (PList (map PInt l)).
Proof. unfold str_of_list. cbn [str_of_val]. rewrite map_map. reflexivity. Qed.
Lemma symbol_name_val s : symbol_name (VS s) = symbol_str (val_of_schur s).
Proof.
  unfold symbol_name, symbol_str, schur_str. f_equal. destruct s as [l|t b]; cbn [str_of_schur val_of_schur].
  - rewrite str_list_val. reflexivity.
  - rewrite !str_list_val. cbn [str_of_val map join append]. rewrite ?sapp_assoc. cbn [append]. rewrite ?sapp_assoc. reflexivity.
Qed.
Lemma val_of_schur_inj s s' : val_of_schur s = val_of_schur s' -> s = s'.
Proof.
  assert (M : forall a b, map PInt a = map PInt b -> a = b).
  { induction a as [|x a IH]; intros [|y b] E; try discriminate; auto. inversion E. f_equal; auto. }
  destruct s as [l|t b], s' as [l'|t' b']; cbn [val_of_schur]; intros E; inversion E as [E1].
  - f_equal. auto.
  - destruct l as [|x [|y [|? ?]]]; discriminate.
  - destruct l' as [|x [|y [|? ?]]]; discriminate.
  - f_equal; auto.
Qed.
Lemma val_of_schur_nonneg s : schur_nonneg s = true -> exists l, val_of_schur s = PList l /\ forallb val_nonneg l = true.
Proof.
  assert (M : forall a, forallb (fun x => 0 <=? x) a = true -> forallb val_nonneg (map PInt a) = true).
  { induction a as [|x a IH]; cbn [forallb map]; auto. rewrite !andb_true_iff. intros [? ?]; split; auto. }
  destruct s as [l|t b]; cbn [schur_nonneg val_of_schur]; intros H.
  - eexists. split; [reflexivity|auto].
  - apply andb_true_iff in H. destruct H. eexists. split; [reflexivity|]. cbn [forallb val_nonneg]. rewrite !M by auto. auto.
Qed.
Lemma class_symbol_inj s s' : schur_nonneg s = true -> schur_nonneg s' = true ->
  symbol_name (VS s) = symbol_name (VS s') -> s = s'.
Proof.
  intros H H'. rewrite !symbol_name_val. destruct (val_of_schur_nonneg s H) as (l & E & Hl).
  destruct (val_of_schur_nonneg s' H') as (l' & E' & Hl'). rewrite E, E'. intros Eq.
  apply val_of_schur_inj. rewrite E, E'. f_equal. apply symbol_str_inj; auto.
Qed.
Lemma class_symbol_read s : schur_nonneg s = true -> toSchur (symbol_name (VS s)) = Ok (val_of_schur s).
Proof.
  intros H. rewrite symbol_name_val. destruct (val_of_schur_nonneg s H) as (l & E & Hl). rewrite E. apply toSchur_symbol; auto.
Qed.
Lemma var_symbol_inj v w :
  match v with VS s => schur_nonneg s = true | _ => True end ->
  match w with VS s => schur_nonneg s = true | _ => True end ->
  symbol_name v = symbol_name w -> v = w.
Proof.
  assert (HS : forall s, exists t, symbol_name (VS s) = String "S"%char t) by (intros [l|t b]; cbn; eauto).
  destruct v as [s| | |], w as [s'| | |]; intros Hv Hw E; try reflexivity; try discriminate E;
    try (destruct (HS s) as [x Hx]; rewrite Hx in E; discriminate E);
    try (destruct (HS s') as [x Hx]; rewrite Hx in E; discriminate E).
  f_equal. exact (class_symbol_inj s s' Hv Hw E).
Qed.
