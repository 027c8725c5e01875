(** Conversion from Sage: the lemmas behind PropsSage.v. *)

From Coq Require Import ZArith List Lia Bool String Ascii QArith Qcanon.
From Verif Require Import Py ModelPoly ModelStr ModelParse ModelDraw ModelSage ModelGr Spec SpecMisc ParseFacts.
Import ListNotations.
Open Scope Z_scope.

Lemma drop_blanks_digits s t : alls (fun c => is_digit c = true) s -> drop_blanks (s ++ t) = (s ++ drop_blanks t)%string.
Proof.
  induction 1 as [|c s Hc _ IH]; [reflexivity|]. change (String c s ++ t)%string with (String c (s ++ t)). change (String c s ++ drop_blanks t)%string with (String c (s ++ drop_blanks t)).
  rewrite <- IH. apply digit_cases in Hc. simpl in Hc. repeat (destruct Hc as [<-|Hc]; [reflexivity|]). destruct Hc.
Qed.
Lemma drop_blanks_join l : forallb (fun x => 0 <=? x) l = true -> drop_blanks (join ", " (map str_of_Z l) ++ "]") = (join "," (map str_of_Z l) ++ "]")%string.
Proof.
  induction l as [|a l IH]; [reflexivity|]. cbn [forallb]. rewrite andb_true_iff, Z.leb_le. intros [Ha Hl]. specialize (IH Hl).
  destruct l as [|b l]; [cbn [map join]; rewrite drop_blanks_digits by apply (str_Z_digits a Ha); reflexivity|].
  change (join ", " (map str_of_Z (a :: b :: l))) with (str_of_Z a ++ ", " ++ join ", " (map str_of_Z (b :: l)))%string.
  change (join "," (map str_of_Z (a :: b :: l))) with (str_of_Z a ++ "," ++ join "," (map str_of_Z (b :: l)))%string.
  rewrite !sapp_assoc. rewrite drop_blanks_digits by apply (str_Z_digits a Ha). f_equal.
  change (drop_blanks (", " ++ (join ", " (map str_of_Z (b :: l)) ++ "]"))) with ("," ++ drop_blanks (join ", " (map str_of_Z (b :: l)) ++ "]"))%string.
  rewrite IH. reflexivity.
Qed.
Lemma decode_plain s : alls plain s -> decode s = s.
Proof.
  unfold decode. induction 1 as [|c s Hc _ IH]; cbn [smap]; auto. rewrite IH. apply plain_cases in Hc. simpl in Hc.
  repeat (destruct Hc as [<-|Hc]; [reflexivity|]). destruct Hc.
Qed.
Lemma read_list l : forallb (fun x => 0 <=? x) l = true -> Schur_of_text (str_of_list_sp l) = Ok (PList (map PInt l)).
Proof.
  intros H. unfold Schur_of_text. assert (HV : forallb val_nonneg (map PInt l) = true) by (rewrite forallb_forall in *; intros v Hv; apply in_map_iff in Hv; destruct Hv as (x & <- & Hx); apply (H x Hx)).
  assert (E : drop_blanks (str_of_list_sp l) = str_of_val (PList (map PInt l))).
  { unfold str_of_list_sp. change (drop_blanks ("[" ++ ?s)) with ("[" ++ drop_blanks s)%string. rewrite drop_blanks_join by auto. cbn [str_of_val]. rewrite map_map. reflexivity. }
  rewrite E. unfold toSchur. assert (P : alls plain (str_of_val (PList (map PInt l)))) by (apply val_plain; auto).
  rewrite decode_plain, drop_S_plain by auto. unfold literal_eval.
  pose proof (parse_ok (PList (map PInt l)) HV (2 * String.length (str_of_val (PList (map PInt l))) + 2) ""%string ltac:(lia) I) as Q.
  rewrite sapp_nil in Q. rewrite Q. reflexivity.
Qed.
Lemma c80_basis l c : (forall x, In x l -> 0 <= x) -> sage_schur_to_schur (mkSage true [(l, c)]) = Ok (val_of_schur (SP l)).
Proof.
  intros H. unfold sage_schur_to_schur. cbn [sage_parent_is_S negb sage_terms]. cbn [val_of_schur]. apply read_list. apply forallb_forall. intros x Hx. apply Z.leb_le. auto.
Qed.
Lemma c80_errors : forall t, sage_schur_to_schur (mkSage false t) = Err ValueError.
Proof. reflexivity. Qed.
Lemma c80_sums : exists e e', e <> e' /\ sage_parent_is_S e = true /\ sage_parent_is_S e' = true /\
  NoDup (map fst (sage_terms e)) /\ NoDup (map fst (sage_terms e')) /\
  sage_schur_to_schur e = Ok (PList [PInt 2; PInt 1]) /\ sage_schur_to_schur e' = Ok (PList [PInt 2; PInt 1]) /\
  sage_schur_to_schur (mkSage true []) = Err IndexError.
Proof.
  exists (mkSage true [([2; 1], 1%Qc)]), (mkSage true [([2; 1], (1 + 1)%Qc); ([3], 1%Qc)]). split; [discriminate|]. do 2 (split; [reflexivity|]).
  split; [repeat constructor; intros []|]. split; [repeat constructor; [intros [E|[]]; discriminate E|intros []]|]. repeat split; vm_compute; reflexivity.
Qed.
