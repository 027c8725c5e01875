(** Lemmas about texts (ModelText.v). *)

From Coq Require Import ZArith List Lia Bool QArith Qcanon String Ascii DecimalString DecimalZ.
From Verif Require Import Py PyFacts ModelPart ModelQcalc ModelPoly ModelStr ModelParse ModelExpr ModelGr ModelText Spec SpecMisc
  SpecText ParseFacts ExprFacts ApiExpr GrInv FactsA.
Import ListNotations.
Open Scope Z_scope.

(** ** printing and reading *)
Lemma stars_two c c' t : replace_stars (String c (String c' t)) =
  if Ascii.eqb c "*" && Ascii.eqb c' "*" then String "^" (replace_stars t) else String c (replace_stars (String c' t)).
Proof. reflexivity. Qed.
Lemma caret_stars s : alls (fun c => c <> "^"%char) s -> replace_caret (replace_stars s) = s.
Proof.
  enough (HN : forall n s, (String.length s <= n)%nat -> alls (fun c => c <> "^"%char) s -> replace_caret (replace_stars s) = s) by (intros; eapply HN; eauto).
  clear s. induction n as [|n IH]; intros s Hn Hs.
  - destruct s; [reflexivity|cbn in Hn; lia].
  - destruct s as [|c t]; [reflexivity|]. inversion Hs as [|? ? Hc Ht]; subst. cbn [String.length] in Hn.
    destruct t as [|c' t'].
    + cbn [replace_stars replace_caret]. destruct (Ascii.eqb_spec c "^"%char); [contradiction|]. reflexivity.
    + inversion Ht as [|? ? Hc' Ht']; subst. cbn [String.length] in Hn. rewrite stars_two.
      destruct (Ascii.eqb_spec c "*"%char); [destruct (Ascii.eqb_spec c' "*"%char)|]; cbn [andb].
      * subst. cbn [replace_caret]. change (Ascii.eqb "^" "^") with true. cbn iota. rewrite IH; auto. lia.
      * set (u := String c' t') in *. cbn [replace_caret].
        destruct (Ascii.eqb_spec c "^"%char); [contradiction|]. rewrite IH; auto. unfold u. cbn [String.length]. lia.
      * set (u := String c' t') in *. cbn [replace_caret].
        destruct (Ascii.eqb_spec c "^"%char); [contradiction|]. rewrite IH; auto. unfold u. cbn [String.length]. lia.
Qed.
Lemma smap_smap f g s : smap f (smap g s) = smap (fun c => f (g c)) s.
Proof. induction s; simpl; congruence. Qed.
Lemma smap_app f a b : smap f (a ++ b) = (smap f a ++ smap f b)%string.
Proof. induction a; simpl; congruence. Qed.
Lemma encode_decode s : alls (fun c => ~ In c ["["; ","; "]"]%char) s -> encode (decode s) = s.
Proof.
  intros Hs. unfold encode, decode. rewrite smap_smap. induction Hs as [|c s Hc Hs IH]; [reflexivity|]. cbn [smap]. rewrite IH. f_equal.
  unfold btr. destruct (Ascii.eqb_spec c "f"%char); [subst; reflexivity|]. destruct (Ascii.eqb_spec c "j"%char); [subst; reflexivity|].
  destruct (Ascii.eqb_spec c "g"%char); [subst; reflexivity|]. unfold ftr. cbn [In] in Hc.
  destruct (Ascii.eqb_spec c "["%char); [subst; tauto|]. destruct (Ascii.eqb_spec c ","%char); [subst; tauto|].
  destruct (Ascii.eqb_spec c "]"%char); [subst; tauto|]. reflexivity.
Qed.
Lemma c64_back txt : sympy_text txt -> lc_read (lc_str txt) = txt.
Proof.
  intros H. unfold lc_read, lc_str. rewrite caret_stars.
  - apply encode_decode. eapply alls_impl; [|exact H]. cbn [In]. tauto.
  - unfold decode. induction H as [|c s Hc Hs IH]; constructor; auto. unfold btr. cbn [In] in Hc.
    destruct (Ascii.eqb_spec c "f"%char); [discriminate|]. destruct (Ascii.eqb_spec c "j"%char); [discriminate|].
    destruct (Ascii.eqb_spec c "g"%char); [discriminate|]. intros ->. tauto.
Qed.
Lemma stars_app a c b : c <> "*"%char -> replace_stars (a ++ String c b) = (replace_stars a ++ String c (replace_stars b))%string.
Proof.
  intros Hc. assert (H1 : forall c b, c <> "*"%char -> replace_stars (String c b) = String c (replace_stars b)).
  { intros x y Hx. destruct y as [|y0 y]; [reflexivity|]. cbn [replace_stars]. destruct (Ascii.eqb_spec x "*"%char); [contradiction|]. reflexivity. }
  enough (HN : forall n a, (String.length a <= n)%nat -> replace_stars (a ++ String c b) = (replace_stars a ++ String c (replace_stars b))%string) by eauto.
  clear a. induction n as [|n IH]; intros a Hn.
  - destruct a; [apply H1; auto|cbn in Hn; lia].
  - destruct a as [|x [|y a]]; [apply H1; auto| |].
    + cbn [append]. destruct (Ascii.eqb_spec x "*"%char) as [->|Hx].
      * change (replace_stars (String "*" (String c b))) with
          (if Ascii.eqb "*" "*" && Ascii.eqb c "*" then String "^" (replace_stars b) else String "*" (replace_stars (String c b))).
        destruct (Ascii.eqb_spec c "*"%char); [contradiction|]. rewrite andb_false_r. rewrite H1 by auto. reflexivity.
      * rewrite (H1 x) by auto. rewrite (H1 c) by auto. reflexivity.
    + cbn [String.length] in Hn. change ((String x (String y a) ++ String c b)%string) with (String x (String y (a ++ String c b))).
      rewrite !stars_two. destruct (Ascii.eqb x "*" && Ascii.eqb y "*").
      * cbn [append]. rewrite <- IH by lia. reflexivity.
      * change (replace_stars (String y (a ++ String c b))) with (replace_stars (String y a ++ String c b)). rewrite IH by (cbn [String.length]; lia). reflexivity.
Qed.
Lemma stars_none x : alls (fun c => c <> "*"%char) x -> replace_stars x = x.
Proof.
  intros H. induction H as [|c s Hc Hs IH]; [reflexivity|]. pose proof (stars_app "" c s Hc) as E. cbn [append] in E. rewrite E, IH. reflexivity.
Qed.
Lemma stars_mid a x b : x <> EmptyString -> alls (fun c => c <> "*"%char) x ->
  replace_stars (a ++ x ++ b) = (replace_stars a ++ x ++ replace_stars b)%string.
Proof.
  intros Hne Hx. revert a. induction Hx as [|c s Hc Hs IH]; intros a; [congruence|].
  change ((String c s ++ b)%string) with (String c (s ++ b)). rewrite stars_app by auto.
  destruct s as [|d s']; [reflexivity|]. pose proof (IH ltac:(discriminate) EmptyString) as E. cbn [append] in E.
  change (String d (s' ++ b)) with (String d s' ++ b)%string in E. rewrite E. reflexivity.
Qed.
Lemma plain_nonneg s : schur_nonneg s = true -> exists t, str_of_schur s = String "S"%char t /\ alls plain t.
Proof.
  intros H. destruct (val_of_schur_nonneg s H) as (l & E & Hl).
  exists (str_of_val (PList l)). split; [|apply val_plain; exact Hl]. destruct s as [p|t b]; cbn [val_of_schur] in E; injection E as <-.
  - unfold str_of_schur. rewrite str_list_val. reflexivity.
  - unfold str_of_schur. rewrite !str_list_val. cbn [str_of_val map join]. rewrite !sapp_assoc. reflexivity.
Qed.
Lemma c64_class a s b : schur_nonneg s = true ->
  lc_str (a ++ symbol_name (VS s) ++ b) = (lc_str a ++ str_of_schur s ++ lc_str b)%string.
Proof.
  intros H. destruct (plain_nonneg s H) as (t & E & Ht). unfold lc_str, decode. rewrite !smap_app. fold (decode (symbol_name (VS s))).
  assert (ED : decode (symbol_name (VS s)) = str_of_schur s).
  { unfold symbol_name. rewrite E. change (encode (String "S" t)) with (String "S" (encode t)). change (decode (String "S" (encode t))) with (String "S" (decode (encode t))).
    rewrite decode_encode by auto. reflexivity. }
  rewrite ED. apply stars_mid.
  - rewrite E. discriminate.
  - rewrite E. constructor; [discriminate|]. eapply alls_impl; [|exact Ht]. intros c Hc ->. apply plain_cases in Hc. cbn [In] in Hc. intuition discriminate.
Qed.
Lemma caret_app a b : replace_caret (a ++ b) = (replace_caret a ++ replace_caret b)%string.
Proof. induction a as [|c a IH]; [reflexivity|]. cbn [append replace_caret]. destruct (Ascii.eqb c "^"); rewrite IH; reflexivity. Qed.
Lemma caret_none x : alls (fun c => c <> "^"%char) x -> replace_caret x = x.
Proof. intros H. induction H as [|c s Hc Hs IH]; [reflexivity|]. cbn [replace_caret]. destruct (Ascii.eqb_spec c "^"%char); [contradiction|]. rewrite IH. reflexivity. Qed.
Lemma c64_read_class a s b : schur_nonneg s = true ->
  lc_read (a ++ str_of_schur s ++ b) = (lc_read a ++ symbol_name (VS s) ++ lc_read b)%string.
Proof.
  intros H. destruct (plain_nonneg s H) as (t & E & Ht). unfold lc_read, encode. rewrite !caret_app, !smap_app. f_equal. f_equal.
  rewrite caret_none; [reflexivity|]. rewrite E. constructor; [discriminate|].
  eapply alls_impl; [|exact Ht]. intros c Hc ->. apply plain_cases in Hc. cbn [In] in Hc. intuition discriminate.
Qed.
Lemma c64_read_power a b : lc_read (a ++ "^" ++ b) = (lc_read a ++ "**" ++ lc_read b)%string.
Proof. unfold lc_read, encode. rewrite !caret_app, !smap_app. reflexivity. Qed.

(** ** the form of an expression *)
Fixpoint tree_size (e : tree) : nat :=
  match e with
  | TNum _ => 1 | TSym _ => 1
  | TAdd l => S (fold_right (fun x s => tree_size x + s) 0 l)%nat
  | TMul l => S (fold_right (fun x s => tree_size x + s) 0 l)%nat
  | TPow b _ => S (tree_size b)
  end.
Lemma tree_size_in x l : In x l -> (tree_size x <= fold_right (fun x s => tree_size x + s) 0 l)%nat.
Proof. induction l as [|y l IH]; intros []; cbn [fold_right]; [subst; lia|apply IH in H; lia]. Qed.
Lemma listed_list s l : listed s (NList l) <-> exists x, In x l /\ listed s x.
Proof. split; [inversion 1; subst; eauto|intros (x & H1 & H2); econstructor; eauto]. Qed.
Lemma listed_none s : ~ listed s NNone.
Proof. inversion 1. Qed.
Lemma occurs_add v l : occurs v (TAdd l) <-> exists x, In x l /\ occurs v x.
Proof. split; [inversion 1; subst; eauto|intros (x & H1 & H2); econstructor; eauto]. Qed.
Lemma occurs_mul v l : occurs v (TMul l) <-> exists x, In x l /\ occurs v x.
Proof. split; [inversion 1; subst; eauto|intros (x & H1 & H2); econstructor; eauto]. Qed.
Lemma occurs_pow v b n : occurs v (TPow b n) <-> occurs v b.
Proof. split; [inversion 1; auto|constructor; auto]. Qed.
Lemma c65_operands s : forall e, listed s (list_schur_oprands e) <-> occurs (VS s) e.
Proof.
  enough (HN : forall n e, (tree_size e <= n)%nat -> (listed s (list_schur_oprands e) <-> occurs (VS s) e)) by eauto.
  induction n as [|n IH]; intros e Hn; [destruct e; cbn in Hn; lia|].
  assert (HL : forall l, (fold_right (fun x s => tree_size x + s) 0 l <= n)%nat ->
    (exists x, In x (map list_schur_oprands l) /\ listed s x) <-> (exists x, In x l /\ occurs (VS s) x)).
  { intros l Hl. split.
    - intros (y & Hy & HL). apply in_map_iff in Hy. destruct Hy as (x & <- & Hx). pose proof (tree_size_in _ _ Hx). exists x. split; auto. apply IH; auto. lia.
    - intros (x & Hx & HO). pose proof (tree_size_in _ _ Hx). exists (list_schur_oprands x). split; [apply in_map, Hx|]. apply IH; auto. lia. }
  destruct e as [c|v|l|l|b k]; cbn [tree_size] in Hn; cbn [list_schur_oprands].
  - split; intros H; [apply listed_none in H; tauto|inversion H].
  - destruct v as [s'| | |]; split; intros H; inversion H; subst; constructor.
  - rewrite listed_list, occurs_add. apply HL. lia.
  - rewrite listed_list, occurs_mul. apply HL. lia.
  - rewrite listed_list, occurs_pow, <- IH by lia. split.
    + intros (x & [<-|[<-|[]]] & H); [auto|apply listed_none in H; tauto].
    + intros H. eexists. split; [left; reflexivity|auto].
Qed.
Lemma c65_operator e op r : is_operator e op = r ->
  (op = "+"%string -> r = Ok true <-> exists l, e = TAdd l) /\
  (op = "*"%string -> r = Ok true <-> exists l, e = TMul l) /\
  (op = "^"%string -> r = Ok true <-> exists b k, e = TPow b k) /\
  (~ In op ["+"; "*"; "^"]%string -> r = Err ValueError).
Proof.
  intros <-. unfold is_operator. split; [|split; [|split]].
  - intros ->. cbn. split; [destruct e; intros E; try discriminate; eauto|intros (l & ->); auto].
  - intros ->. cbn. split; [destruct e; intros E; try discriminate; eauto|intros (l & ->); auto].
  - intros ->. cbn. split; [destruct e; intros E; try discriminate; eauto|intros (b & k & ->); auto].
  - intros H. cbn [In] in H. destruct (String.eqb_spec op "+"); [subst; tauto|]. destruct (String.eqb_spec op "*"); [subst; tauto|].
    destruct (String.eqb_spec op "^"); [subst; tauto|]. reflexivity.
Qed.

(** ** the text of a Grassmannian *)
Lemma str_of_Z_inj a b : str_of_Z a = str_of_Z b -> a = b.
Proof.
  intros H. unfold str_of_Z in H. assert (HI : forall z, NilZero.int_of_string (NilZero.string_of_int (Z.to_int z)) = Some (Z.to_int z)).
  { intros z. apply NilZero.isi.
    - destruct z; cbn; [discriminate| |discriminate]. intros E. injection E as E. exact (DecimalPos.Unsigned.to_uint_nonnil _ E).
    - destruct z; cbn; [discriminate|discriminate|]. intros E. injection E as E. exact (DecimalPos.Unsigned.to_uint_nonnil _ E). }
  apply (f_equal NilZero.int_of_string) in H. rewrite !HI in H. injection H as H.
  apply (f_equal Z.of_int) in H. rewrite !DecimalZ.of_to in H. exact H.
Qed.
Definition numch (c : ascii) : Prop := is_digit c = true \/ c = "-"%char.
Lemma str_of_Z_num z : alls numch (str_of_Z z).
Proof.
  destruct (Z.le_gt_cases 0 z) as [H|H].
  - eapply alls_impl; [|apply str_Z_digits; auto]. intros c Hc. left. exact Hc.
  - destruct z as [|p|p]; try lia. unfold str_of_Z. cbn [Z.to_int NilZero.string_of_int]. constructor; [right; reflexivity|].
    destruct (str_Z_digits (Z.pos p) ltac:(lia)) as [D _]. unfold str_of_Z in D. cbn [Z.to_int NilZero.string_of_int] in D.
    eapply alls_impl; [|exact D]. intros c Hc. left. exact Hc.
Qed.
Lemma split_at (P : ascii -> Prop) c u v r r' : ~ P c -> alls P u -> alls P v -> (u ++ String c r = v ++ String c r')%string -> u = v /\ r = r'.
Proof.
  intros Hc Hu. revert v. induction Hu as [|x u Hx Hu IH]; intros v Hv E.
  - destruct Hv as [|y v Hy Hv]; cbn [append] in E; inversion E; subst; auto. contradiction.
  - destruct Hv as [|y v Hy Hv]; cbn [append] in E; injection E as E1 E2; [subst; contradiction|]. subst y.
    destruct (IH v Hv E2) as [-> ->]. auto.
Qed.
Lemma c66_str_inj g g' : gr_str g = gr_str g' -> g = g'.
Proof.
  assert (N1 : ~ numch ","%char) by (intros [H|H]; discriminate). assert (N2 : ~ numch ")"%char) by (intros [H|H]; discriminate).
  assert (HI : forall k n r k' n' r', (str_of_Z k ++ "," ++ str_of_Z n ++ ")" ++ r = str_of_Z k' ++ "," ++ str_of_Z n' ++ ")" ++ r')%string -> k = k' /\ n = n').
  { intros k n r k' n' r' E. cbn [append] in E. apply (split_at numch) in E; auto using str_of_Z_num. destruct E as [E1 E2].
    apply (split_at numch) in E2; auto using str_of_Z_num. destruct E2 as [E2 _]. split; apply str_of_Z_inj; auto. }
  destruct g as [t k n], g' as [t' k' n']. unfold gr_str. cbn [g_type g_k g_n]. intros E.
  destruct t, t'; cbn [append] in E; try discriminate E; injection E; clear E; intros E; repeat (injection E; clear E; intros E).
  all: match type of E with (str_of_Z _ ++ String _ (str_of_Z _ ++ String _ ?r) = str_of_Z _ ++ String _ (str_of_Z _ ++ String _ ?r'))%string =>
    destruct (HI k n r k' n' r' E); subst; reflexivity end.
Qed.
Lemma c65_len ts : (forall t, In t ts -> exists lam, class_term t lam) ->
  exists xs, schur_expansion (TAdd ts) true = Ok (Many xs) /\ lc_len (TAdd ts) = Z.of_nat (List.length xs).
Proof. intros H. destruct (c39_total ts H) as (xs & E & L & _). exists xs. split; auto. cbn [lc_len]. unfold zlen. congruence. Qed.
Lemma c65_len_one : exists t lam x, class_term t lam /\ schur_expansion t true = Ok (One x) /\ lc_len t = 2.
Proof.
  exists (TMul [TNum (Q2Qc 3); TSym (vS [1])]), [1]. eexists. split; [|split; reflexivity].
  apply (ct_product [TNum (Q2Qc 3)] [1] []). intros x s [<-|[]]; discriminate.
Qed.
Lemma c66_call m n g :
  (Grassmannian m n = Ok g -> exists a b, gr_str g = (a ++ "Gr(" ++ str_of_Z m ++ "," ++ str_of_Z n ++ ")" ++ b)%string) /\
  (IsotropicGrassmannian m n = Ok g -> exists a b, gr_str g = (a ++ "IG(" ++ str_of_Z m ++ "," ++ str_of_Z n ++ ")" ++ b)%string) /\
  (OrthogonalGrassmannian m n = Ok g -> exists a b, gr_str g = (a ++ "OG(" ++ str_of_Z m ++ "," ++ str_of_Z n ++ ")" ++ b)%string).
Proof.
  assert (HA : forall t k0 n0 name m' n' d, exists a b,
    ("Type " ++ t ++ " ;  (k,n) = (" ++ str_of_Z k0 ++ "," ++ str_of_Z n0 ++ ") ;  " ++ name ++ "("
      ++ str_of_Z m' ++ "," ++ str_of_Z n' ++ ") ;  deg(q) = " ++ d)%string =
    (a ++ (name ++ "(" ++ str_of_Z m' ++ "," ++ str_of_Z n' ++ ")" ++ b))%string).
  { intros. exists ("Type " ++ t ++ " ;  (k,n) = (" ++ str_of_Z k0 ++ "," ++ str_of_Z n0 ++ ") ;  ")%string, (" ;  deg(q) = " ++ d)%string.
    rewrite !sapp_assoc. reflexivity. }
  unfold Grassmannian, IsotropicGrassmannian, OrthogonalGrassmannian. split; [|split].
  - destruct ((m <? 0) || (n <? 0)) eqn:E; [discriminate|]. destruct (n <? m); [discriminate|]. intros H. injection H as <-.
    unfold gr_str. cbn [g_type g_k g_n]. replace (n - (n - m)) with m by lia. apply HA.
  - destruct ((m <? 0) || (n <? 0)) eqn:E; [discriminate|]. destruct (Z.eqb_spec (n mod 2) 1); [discriminate|]. destruct (n / 2 <? m); [discriminate|].
    intros H. injection H as <-. unfold gr_str. cbn [g_type g_k g_n]. replace (n / 2 - (n / 2 - m)) with m by lia.
    replace (2 * (n / 2)) with n; [apply HA|]. pose proof (Z.div_mod n 2 ltac:(lia)). pose proof (Z.mod_pos_bound n 2 ltac:(lia)). lia.
  - destruct ((m <? 0) || (n <? 0)) eqn:E; [discriminate|]. destruct (Z.eqb_spec (n mod 2) 1) as [Ho|Ho]; intros H; injection H as <-; unfold gr_str; cbn [g_type g_k g_n].
    + replace ((n - 1) / 2 - ((n - 1) / 2 - m)) with m by lia. replace (2 * ((n - 1) / 2) + 1) with n; [apply HA|].
      pose proof (Z.div_mod n 2 ltac:(lia)). assert ((n - 1) / 2 = n / 2); [|lia]. symmetry. apply (Z.div_unique (n - 1) 2 (n / 2) 0); lia.
    + replace (n / 2 - 1 + 1 - (n / 2 - m)) with m by lia. replace (2 * (n / 2 - 1) + 2) with n; [apply HA|].
      pose proof (Z.div_mod n 2 ltac:(lia)). pose proof (Z.mod_pos_bound n 2 ltac:(lia)). lia.
Qed.
Lemma gr_str_degree g : exists a, gr_str g = (a ++ " deg(q) = " ++ str_of_Z (degree_q g))%string.
Proof.
  assert (HA : forall t k0 n0 name m' n' d, exists a,
    ("Type " ++ t ++ " ;  (k,n) = (" ++ str_of_Z k0 ++ "," ++ str_of_Z n0 ++ ") ;  " ++ name ++ "("
      ++ str_of_Z m' ++ "," ++ str_of_Z n' ++ ") ;  deg(q) = " ++ d)%string = (a ++ " deg(q) = " ++ d)%string).
  { intros. exists ("Type " ++ t ++ " ;  (k,n) = (" ++ str_of_Z k0 ++ "," ++ str_of_Z n0 ++ ") ;  " ++ name ++ "("
      ++ str_of_Z m' ++ "," ++ str_of_Z n' ++ ") ; ")%string. rewrite !sapp_assoc. reflexivity. }
  unfold gr_str. destruct (g_type g); apply HA.
Qed.
Lemma c66_degree m n g :
  (Grassmannian m n = Ok g -> degree_q g = n) /\
  (IsotropicGrassmannian m n = Ok g -> degree_q g = n + 1 - m) /\
  (OrthogonalGrassmannian m n = Ok g -> m <= n / 2 -> degree_q g = if m =? n / 2 then 2 * ((n - 1) / 2) else n - 1 - m) /\
  exists a, gr_str g = (a ++ " deg(q) = " ++ str_of_Z (degree_q g))%string.
Proof.
  split; [|split; [|split; [|apply gr_str_degree]]].
  - intros H. apply gr_inv in H. destruct H as (_ & _ & ->). unfold RingA.gA, degree_q. cbn [g_type g_n]. lia.
  - intros H. apply ig_inv in H. destruct H as (h & -> & _ & _ & ->). unfold degree_q. cbn [g_type g_k g_n]. lia.
  - intros H Hm. apply og_inv in H; auto. destruct H as [(h & E & E2 & _ & _ & ->)|(h & E & E2 & _ & _ & ->)]; unfold degree_q; cbn [g_type g_k g_n].
    + assert ((n - 1) / 2 = h) as -> by (subst n; replace (2 * h + 1 - 1) with (h * 2) by lia; apply Z.div_mul; lia).
      destruct (Z.eqb_spec (h - m) 0), (Z.eqb_spec m (n / 2)); lia.
    + assert ((n - 1) / 2 = h) as -> by (symmetry; apply (Z.div_unique (n - 1) 2 h 1); lia).
      destruct (Z.eqb_spec (h + 1 - m) 0), (Z.eqb_spec m (n / 2)); lia.
Qed.
