(** Pictures, CSV files and Schur polynomials: from the model to the notions of
    SpecMisc.v. *)

From Coq Require Import ZArith List Lia Bool Permutation String Ascii.
From Coq Require Import QArith Qcanon.
From Verif Require Import Py ModelPart ModelPoly ModelGr ModelMisc Spec SpecMisc PolyFacts PyFacts PartFacts ApiPart ApiGr TabFacts Check.
Open Scope Z_scope.
Import ListNotations.
Open Scope Z_scope.

(** ** Schur polynomials *)
Lemma clip_part lam : is_partition lam -> part_clip lam = lam.
Proof.
  intros [H _]. apply part_clip_pos. apply Forall_forall. intros x Hx. apply (In_nth _ _ 0) in Hx.
  destruct Hx as (i & Hi & <-). specialize (H i Hi). unfold part in H. lia.
Qed.

Lemma c30_main n lam c : 1 <= n -> is_partition lam -> 0 <= c ->
  exists p Ts, SchurPol n (lam ++ repz 0 c) = (lam, Ok p) /\
    NoDup Ts /\ (forall T, In T Ts <-> ssyt n lam T) /\ Permutation p (map (content n) Ts).
Proof.
  intros Hn Hl Hc.
  assert (E : part_clip (lam ++ repz 0 c) = lam) by (rewrite part_clip_app0; apply clip_part; auto).
  unfold SchurPol. destruct (Z.ltb_spec n 1); [lia|]. unfold make_partition. rewrite E.
  assert (D : is_non_increasing (lam ++ [0]) = true).
  { apply non_increasing_iff. intros i j Hij. change [0] with (repz 0 1). rewrite !part_app0.
    destruct Hij as [Hij _]. induction Hij; [lia|]. destruct Hl as [_ Hd]. specialize (Hd m). lia. }
  rewrite D. cbn [bind].
  assert (S0 : shape lam lam).
  { split; auto. split; [intros i; pose proof (is_partition_nonneg lam i Hl); lia|apply Hl]. }
  destruct (sch_ok n lam Hn Hl (Z.to_nat (n + zsum lam) + 1) n 1 lam) as (p & S & Ep & Ts & H1 & H2 & H3); auto; try lia.
  rewrite Ep. cbn [bind]. exists p, Ts. split; auto. split; auto. split; auto.
  intros T. rewrite H2. unfold tab. split; [intros [A _]; auto|]. intros A. split; auto. intros; simpl in *; lia.
Qed.

Lemma c30_bad n kappa : n < 1 -> SchurPol n kappa = (kappa, Err ValueError).
Proof. intros H. unfold SchurPol. destruct (Z.ltb_spec n 1); [auto|lia]. Qed.
Lemma c30_not_partition n kappa : 1 <= n -> ~ (forall i j, (i <= j)%nat -> 0 <= part kappa j <= part kappa i) ->
  snd (SchurPol n kappa) = Err ValueError.
Proof.
  intros Hn H. unfold SchurPol. destruct (Z.ltb_spec n 1); [lia|]. cbn [snd]. unfold make_partition.
  destruct (is_non_increasing (part_clip kappa ++ [0])) eqn:E; [|reflexivity]. exfalso. apply H.
  rewrite non_increasing_iff in E. intros i j Hij. rewrite app_length in E. cbn [List.length] in E.
  assert (K : forall a b, (a <= b)%nat -> part kappa b <= part kappa a).
  { intros a b Hab. destruct (Nat.lt_ge_cases b (List.length (part_clip kappa) + 1)) as [Q|Q].
    - specialize (E a b ltac:(lia)). change [0] with (repz 0 1) in E. rewrite !part_app0, !part_clip_part in E. auto.
    - rewrite <- (part_clip_part kappa b), part_over by lia.
      destruct (Nat.lt_ge_cases a (List.length (part_clip kappa) + 1)) as [Q'|Q'].
      + specialize (E a (List.length (part_clip kappa)) ltac:(lia)). change [0] with (repz 0 1) in E.
        rewrite !part_app0, (part_clip_part kappa a), part_over in E by lia. lia.
      + rewrite <- (part_clip_part kappa a), part_over by lia. lia. }
  split; [|apply K; auto]. specialize (K j (j + List.length kappa)%nat ltac:(lia)). rewrite (part_over kappa (j + _)) in K by lia. lia.
Qed.

(** ** Pictures *)

Lemma get_app_l s t j : (j < String.length s)%nat -> String.get j (s ++ t)%string = String.get j s.
Proof. revert j. induction s as [|c s IH]; intros [|j] H; simpl in *; try lia; auto. apply IH. lia. Qed.
Lemma get_app_r s t j : (String.length s <= j)%nat -> String.get j (s ++ t)%string = String.get (j - String.length s) t.
Proof. revert j. induction s as [|c s IH]; intros [|j] H; simpl in *; try lia; auto. apply IH. lia. Qed.
Lemma length_app s t : String.length (s ++ t)%string = (String.length s + String.length t)%nat.
Proof. induction s; simpl; auto. Qed.
Lemma srep_nat_len c d n : String.length (srep_nat (String c (String d EmptyString)) n) = (2 * n)%nat.
Proof. induction n; simpl in *; auto. rewrite IHn. lia. Qed.
Lemma srep_nat_get c d n : forall j, (j < n)%nat ->
  String.get (2 * j) (srep_nat (String c (String d EmptyString)) n) = Some c /\
  String.get (2 * j + 1) (srep_nat (String c (String d EmptyString)) n) = Some d.
Proof.
  induction n as [|n IH]; intros j H; [lia|]. destruct j as [|j]; [split; reflexivity|].
  replace (2 * S j)%nat with (S (S (2 * j))) by lia. cbn [srep_nat String.append String.get Nat.add]. apply IH. lia.
Qed.

Lemma row_shows a w : 0 <= a <= w -> shows (srep "[]" a ++ srep "  " (w - a))%string a w.
Proof.
  intros H. unfold srep. split.
  - rewrite length_app, !srep_nat_len. lia.
  - intros j Hj. unfold char_at. destruct (Z.ltb_spec j a) as [Q|Q].
    + rewrite !get_app_l by (rewrite srep_nat_len; lia).
      replace (Z.to_nat (2 * j + 1)) with (2 * Z.to_nat j + 1)%nat by lia.
      replace (Z.to_nat (2 * j)) with (2 * Z.to_nat j)%nat by lia. apply srep_nat_get. lia.
    + rewrite !get_app_r by (rewrite srep_nat_len; lia). rewrite !srep_nat_len.
      replace (Z.to_nat (2 * j + 1) - 2 * Z.to_nat a)%nat with (2 * Z.to_nat (j - a) + 1)%nat by lia.
      replace (Z.to_nat (2 * j) - 2 * Z.to_nat a)%nat with (2 * Z.to_nat (j - a))%nat by lia. apply srep_nat_get. lia.
Qed.
Lemma sapp_assoc (a b c : string) : ((a ++ b) ++ c = a ++ (b ++ c))%string.
Proof. induction a; simpl; congruence. Qed.
Lemma srep_nat_add s a b : srep_nat s (a + b) = (srep_nat s a ++ srep_nat s b)%string.
Proof. induction a; simpl; auto. rewrite IHa. symmetry. apply sapp_assoc. Qed.
Lemma srep_add s a b : 0 <= a -> 0 <= b -> (srep s a ++ srep s b)%string = srep s (a + b).
Proof. intros. unfold srep. rewrite <- srep_nat_add. f_equal. lia. Qed.
Lemma slen_row a w : 0 <= a <= w -> slen (srep "[]" a ++ srep "  " (w - a))%string = 2 * w.
Proof. intros H. apply (row_shows a w H). Qed.

Definition maxl (l : list Z) : Z := match l with [] => 0 | x :: t => fold_left Z.max t x end.
Lemma fold_max_le t : forall x a, In a (x :: t) -> a <= fold_left Z.max t x.
Proof.
  induction t as [|y t IH]; intros x a H; simpl in *; [destruct H as [->|[]]; lia|].
  destruct H as [->|[->|H]].
  - specialize (IH (Z.max a y) (Z.max a y) (or_introl eq_refl)). lia.
  - specialize (IH (Z.max x a) (Z.max x a) (or_introl eq_refl)). lia.
  - apply IH. auto.
Qed.
Lemma maxl_le l a : In a l -> a <= maxl l.
Proof. destruct l; [intros []|]. apply fold_max_le. Qed.
Lemma maxl_dec l : (forall j, part l (S j) <= part l j) -> 0 <= part l 0 -> maxl l = part l 0.
Proof.
  destruct l as [|x t]; [reflexivity|]. intros H H0. unfold part in H0. cbn [nth] in H0. unfold maxl.
  assert (K : forall y, In y t -> y <= x).
  { intros y Hy. apply (In_nth _ _ 0) in Hy. destruct Hy as (i & Hi & <-).
    change (part (x :: t) (S i) <= part (x :: t) 0). clear Hi H0. induction i; [apply H|]. pose proof (H (S i)). lia. }
  change (part (x :: t) 0) with x. clear H H0. induction t as [|y t IH]; cbn [fold_left]; auto.
  rewrite Z.max_l by (apply K; left; auto). apply IH. intros z Hz. apply K. right; auto.
Qed.

(** the rows of a picture [w] boxes wide *)
Definition pic (w : Z) (p : list Z) : list string := map (fun a => (srep "[]" a ++ srep "  " (w - a))%string) p.
Lemma nth_pic w p i : (i < List.length p)%nat -> nth i (pic w p) EmptyString = (srep "[]" (part p i) ++ srep "  " (w - part p i))%string.
Proof.
  intros H. unfold pic. rewrite (nth_indep _ _ ((srep "[]" 0 ++ srep "  " (w - 0)))%string) by (rewrite map_length; auto).
  apply (map_nth (fun a => (srep "[]" a ++ srep "  " (w - a))%string)).
Qed.

Lemma c40_ascii p : (forall a, In a p -> 0 <= a) ->
  List.length (partition_to_ascii p) = List.length p /\
  forall i, (i < List.length p)%nat -> shows (nth i (partition_to_ascii p) EmptyString) (part p i) (maxl p).
Proof.
  intros H. change (partition_to_ascii p) with (pic (maxl p) p). split; [apply map_length|].
  intros i Hi. rewrite nth_pic by auto. apply row_shows. assert (HI : In (part p i) p) by (apply nth_In; auto).
  split; [apply H; auto|apply maxl_le; auto].
Qed.

Lemma embed_val p w h : p <> [] -> (forall a, In a p -> 0 <= a <= w) ->
  embed_partition p w h = Ok (pic w (p ++ repz 0 (h - zlen p))).
Proof.
  intros Hp H. unfold embed_partition. change (partition_to_ascii p) with (pic (maxl p) p).
  assert (HM : forall a, In a p -> 0 <= a <= maxl p) by (intros a Ha; split; [apply H; auto|apply maxl_le; auto]).
  assert (HMw : maxl p <= w).
  { destruct p as [|x t]; [easy|]. cbn [maxl]. clear HM Hp. revert x H. induction t as [|y t IH]; intros x H; cbn [fold_left]; [apply (H x); left; auto|].
    apply IH. intros a [<-|Ha]; [|apply H; right; right; auto]. pose proof (H x (or_introl eq_refl)). pose proof (H y (or_intror (or_introl eq_refl))). lia. }
  destruct p as [|x t] eqn:Ep; [easy|]. rewrite <- Ep in *. set (M := maxl p) in *.
  assert (Hx : In x p) by (rewrite Ep; left; auto).
  replace (py_get (pic M p) 0) with (Ok (srep "[]" x ++ srep "  " (M - x))%string) by (rewrite Ep; reflexivity).
  cbn [bind]. rewrite (slen_row x M) by auto.
  assert (E1 : (if 2 * M <? w * 2 then map (fun row => (row ++ srep "  " (w - slen row / 2))%string) (pic M p) else pic M p) = pic w p).
  { destruct (Z.ltb_spec (2 * M) (w * 2)) as [Q|Q].
    - unfold pic. rewrite map_map. apply map_ext_in. intros a Ha. specialize (HM a Ha). rewrite slen_row by auto.
      rewrite Z.mul_comm, Z.div_mul by lia. rewrite sapp_assoc, srep_add by lia. do 2 f_equal. lia.
    - replace M with w by lia. reflexivity. }
  rewrite E1. f_equal. unfold pic at 5. rewrite map_app. fold (pic w p). assert (L : zlen (pic w p) = zlen p) by (unfold zlen, pic; rewrite map_length; auto).
  rewrite L. destruct (Z.ltb_spec (zlen p) h) as [Q|Q].
  - f_equal. unfold repz. clear. induction (Z.to_nat (h - zlen p)); cbn [repeat map]; auto. rewrite <- IHn. f_equal. rewrite Z.sub_0_r. reflexivity.
  - unfold repz. replace (Z.to_nat (h - zlen p)) with 0%nat by lia. cbn [repeat map]. rewrite app_nil_r. auto.
Qed.

Lemma c40_embed p w h : p <> [] -> (forall a, In a p -> 0 <= a <= w) ->
  exists lines, embed_partition p w h = Ok lines /\
    zlen lines = Z.max (zlen p) h /\
    forall i, (i < List.length lines)%nat -> shows (nth i lines EmptyString) (part p i) w.
Proof.
  intros Hp H. rewrite embed_val by auto. eexists. split; [reflexivity|].
  assert (L : List.length (pic w (p ++ repz 0 (h - zlen p))) = List.length (p ++ repz 0 (h - zlen p))) by apply map_length. split.
  - unfold zlen at 1. rewrite L. fold (zlen (p ++ repz 0 (h - zlen p))). unfold zlen. rewrite app_length. unfold repz. rewrite repeat_length. unfold zlen. lia.
  - intros i Hi. rewrite L in Hi. rewrite nth_pic by auto. rewrite part_app0. apply row_shows.
    destruct (Nat.lt_ge_cases i (List.length p)) as [Q|Q].
    + apply H. apply nth_In. auto.
    + rewrite part_over by auto. destruct p as [|x t]; [easy|]. specialize (H x (or_introl eq_refl)). lia.
Qed.

Lemma c40_empty w h : embed_partition [] w h = Err IndexError.
Proof. reflexivity. Qed.

(** *** a whole linear combination *)
Lemma srep1_blank n : String.length (srep_nat " " n) = n /\ forall j, (j < n)%nat -> String.get j (srep_nat " " n) = Some " "%char.
Proof.
  induction n as [|n [IH1 IH2]]; [split; auto; intros; lia|]. split; [simpl; auto|].
  intros [|j] Hj; [reflexivity|]. simpl. apply IH2. lia.
Qed.

Definition row_at (p : list Z) (i : Z) : string := (srep "[]" (part p (Z.to_nat i)) ++ srep "  " (part p 0 - part p (Z.to_nat i)))%string.
Definition piece (first : bool) (t : string * bool * list Z) (i : Z) : string :=
  String.append (if i =? 0 then coeff_text first (fst (fst t)) (snd (fst t)) else srep " " (slen (coeff_text first (fst (fst t)) (snd (fst t)))))
   (row_at (snd t) i).
Fixpoint pieces (first : bool) (l : list (string * bool * list Z)) (i : Z) : list string :=
  match l with [] => [] | t :: ts => piece first t i :: pieces false ts i end.

Lemma label_text first coeff b : coeff_text first coeff b = label first coeff b.
Proof. unfold coeff_text, label. destruct first; reflexivity. Qed.

Lemma part_le_first p i : is_partition p -> part p i <= part p 0.
Proof. intros [_ D]. induction i; [lia|]. specialize (D i). lia. Qed.
Lemma in_part_bounds p a : is_partition p -> In a p -> 0 <= a <= part p 0.
Proof.
  intros H Ha. apply (In_nth _ _ 0) in Ha. destruct Ha as (i & Hi & <-). change (nth i p 0) with (part p i).
  split; [apply is_partition_nonneg; auto|apply part_le_first; auto].
Qed.

Lemma draw_blocks_val h : forall l first, 0 <= h ->
  (forall t, In t l -> is_partition (snd t) /\ snd t <> [] /\ zlen (snd t) <= h) ->
  exists bs, draw_blocks first h l = Ok bs /\
    (forall i, 0 <= i < h -> mapM (fun b => py_get b i) bs = Ok (pieces first l i)).
Proof.
  induction l as [|[[coeff b] p] ts IH]; intros first Hh H; cbn [draw_blocks].
  - exists []. split; auto.
  - destruct (H (coeff, b, p)) as (Hp & Hne & Hlen); [left; auto|]. cbn [snd] in Hp, Hne, Hlen.
    replace (py_max p) with (Ok (part p 0)).
    2:{ destruct p as [|x t]; [easy|]. unfold py_max. f_equal. symmetry. apply (maxl_dec (x :: t)); [apply Hp|apply is_partition_nonneg; auto]. }
    cbn [bind]. rewrite embed_val by (auto; intros a Ha; apply in_part_bounds; auto). cbn [bind].
    assert (G1 : forall i, 0 <= i < h -> py_get (pic (part p 0) (p ++ repz 0 (h - zlen p))) i = Ok (row_at p i)).
    { intros i Hi. rewrite (py_get_in _ i EmptyString).
      - rewrite nth_pic; [rewrite part_app0; reflexivity|]. rewrite app_length. unfold repz. rewrite repeat_length. unfold zlen in *. lia.
      - unfold pic, zlen. rewrite map_length, app_length. unfold repz. rewrite repeat_length. unfold zlen in *. lia. }
    assert (G2 : forall i, 0 <= i < h -> py_get (embed_str (coeff_text first coeff b) h) i =
       Ok (if i =? 0 then coeff_text first coeff b else srep " " (slen (coeff_text first coeff b)))).
    { intros i Hi. unfold embed_str. rewrite (py_get_in _ i EmptyString) by (unfold zlen; rewrite map_length, length_zrange; lia).
      f_equal. rewrite (nth_indep _ _ ((fun i => if i =? 0 then coeff_text first coeff b else srep " " (slen (coeff_text first coeff b))) 0)) by (rewrite map_length, length_zrange; lia).
      rewrite (map_nth (fun i => if i =? 0 then coeff_text first coeff b else srep " " (slen (coeff_text first coeff b)))).
      rewrite nth_zrange by lia. replace (0 + Z.of_nat (Z.to_nat i)) with i by lia. rewrite ?Z2Nat.id by lia. reflexivity. }
    rewrite (mapM_ok _ (piece first (coeff, b, p)) (zrange 0 h)).
    2:{ intros i Hi. apply in_zrange in Hi. rewrite G2, G1 by lia. reflexivity. }
    cbn [bind]. destruct (IH false Hh) as (bs & E & Hbs); [intros t Ht; apply H; right; auto|]. rewrite E. cbn [bind].
    eexists. split; [reflexivity|]. intros i Hi. cbn [mapM pieces].
    rewrite (py_get_in _ i EmptyString) by (unfold zlen; rewrite map_length, length_zrange; lia). cbn [bind].
    rewrite Hbs by auto. cbn [bind]. do 2 f_equal.
    rewrite (nth_indep _ _ (piece first (coeff, b, p) 0)) by (rewrite map_length, length_zrange; lia).
    rewrite (map_nth (piece first (coeff, b, p))), nth_zrange by lia. f_equal. lia.
Qed.

Lemma pieces_line i : forall l first, 0 <= i -> (forall t, In t l -> is_partition (snd t)) ->
  picture_line (Z.to_nat i) first l (sconcat (pieces first l i)).
Proof.
  induction l as [|[[coeff b] p] ts IH]; intros first Hi H; cbn [pieces sconcat]; [constructor|].
  unfold piece. cbn [fst snd]. rewrite sapp_assoc. constructor.
  - intros Q. destruct (Z.eqb_spec i 0); [apply label_text|lia].
  - intros Q. destruct (Z.eqb_spec i 0); [subst; easy|]. rewrite <- label_text. unfold srep, slen. rewrite Nat2Z.id. apply srep1_blank.
  - apply row_shows. specialize (H _ (or_introl eq_refl)). cbn [snd] in H. split; [apply is_partition_nonneg; auto|apply part_le_first; auto].
  - apply IH; auto. intros t Ht. apply H. right; auto.
Qed.

Lemma line_width : forall l first i j s t, picture_line i first l s -> picture_line j first l t -> String.length s = String.length t.
Proof.
  induction l as [|[[coeff b] p] ts IH]; intros first i j s t H1 H2; inversion H1; inversion H2; subst; auto.
  rewrite !length_app. 
  assert (C : forall i c, (i = 0%nat -> c = label first coeff b) -> (i <> 0%nat -> blank c (String.length (label first coeff b))) ->
     String.length c = String.length (label first coeff b)).
  { intros i9 c9 A B. destruct (Nat.eq_dec i9 0) as [Q|Q]; [rewrite A; auto|apply (B Q)]. }
  match goal with A : picture_line i false ts ?r, B : picture_line j false ts ?r' |- _ => rewrite (IH _ _ _ _ _ A B) end.
  repeat match goal with A : i = 0%nat -> ?c = _, B : i <> 0%nat -> _ |- context [String.length ?c] => rewrite (C i c A B); clear A end.
  repeat match goal with A : j = 0%nat -> ?c = _, B : j <> 0%nat -> _ |- context [String.length ?c] => rewrite (C j c A B); clear A end.
  repeat match goal with A : shows _ _ _ |- _ => destruct A as [A _] end. lia.
Qed.

Lemma fold_height l : forall h, let H := fold_left (fun h (x : string * bool * list Z) => Z.max h (zlen (snd x))) l h in
  h <= H /\ (forall t, In t l -> zlen (snd t) <= H).
Proof.
  induction l as [|x l IH]; intros h; cbn [fold_left]; [split; [lia|intros t []]|].
  destruct (IH (Z.max h (zlen (snd x)))) as [A B]. split; [lia|]. intros t [<-|Ht]; [lia|auto].
Qed.

Lemma fold_height_attained l : forall h, let H := fold_left (fun h (x : string * bool * list Z) => Z.max h (zlen (snd x))) l h in
  H = h \/ exists t, In t l /\ H = zlen (snd t).
Proof.
  induction l as [|x l IH]; intros h; cbn [fold_left]; [auto|].
  destruct (IH (Z.max h (zlen (snd x)))) as [A|(t & Ht & A)]; [|right; exists t; split; [right; auto|auto]].
  destruct (Z.max_spec h (zlen (snd x))) as [[_ E]|[_ E]]; [right; exists x; split; [left; auto|lia]|left; lia].
Qed.

Lemma c40_draw l : l <> [] -> (forall t, In t l -> is_partition (snd t) /\ snd t <> []) ->
  exists lines, draw_ascii_partition l = Ok lines /\
    (forall t, In t l -> zlen (snd t) <= zlen lines) /\ (exists t, In t l /\ zlen lines = zlen (snd t)) /\
    (forall i s, nth_error lines i = Some s -> picture_line i true l s) /\
    (forall s t, In s lines -> In t lines -> String.length s = String.length t).
Proof.
  intros Hne H. unfold draw_ascii_partition.
  pose proof (fold_height l 0) as F. pose proof (fold_height_attained l 0) as G. cbv zeta in F, G.
  set (h := fold_left _ l 0) in *. destruct F as [F1 F2].
  destruct (draw_blocks_val h l true F1) as (bs & E & Hbs).
  { intros t Ht. destruct (H t Ht). auto. }
  rewrite E. cbn [bind]. rewrite (mapM_ok _ (fun i => sconcat (pieces true l i)) (zrange 0 h)).
  2:{ intros i Hi. apply in_zrange in Hi. rewrite Hbs by lia. reflexivity. }
  assert (L : zlen (map (fun i => sconcat (pieces true l i)) (zrange 0 h)) = h) by (unfold zlen; rewrite map_length, length_zrange; lia).
  assert (K : forall i s, nth_error (map (fun i => sconcat (pieces true l i)) (zrange 0 h)) i = Some s -> picture_line i true l s).
  { intros i s Hs. assert (Hi : (i < Z.to_nat h)%nat).
    { assert (Q : (i < List.length (map (fun i => sconcat (pieces true l i)) (zrange 0 h)))%nat) by (apply nth_error_Some; congruence). unfold zlen in L. lia. }
    apply nth_error_nth with (d := sconcat (pieces true l 0)) in Hs. rewrite (map_nth (fun i => sconcat (pieces true l i))) in Hs.
    rewrite nth_zrange in Hs by lia. subst s. rewrite <- (Nat2Z.id i) at 1. apply pieces_line; [lia|]. intros t Ht. apply (H t Ht). }
  eexists. split; [reflexivity|]. rewrite L. split; [auto|]. split; [|split; auto].
  - destruct G as [G|G]; auto. destruct l as [|t l]; [easy|]. exists t. split; [left; auto|]. pose proof (F2 t (or_introl eq_refl)). unfold zlen in *. lia.
  - intros s t Hs Ht. apply In_nth_error in Hs. apply In_nth_error in Ht. destruct Hs as [i Hs]. destruct Ht as [j Ht].
    eapply line_width; eauto.
Qed.

(** ** CSV files *)

Lemma row3_eqb_iff a b : row3_eqb a b = true <-> a = b.
Proof.
  destruct a as [[a1 a2] a3], b as [[b1 b2] b3]. unfold row3_eqb. rewrite !andb_true_iff, !String.eqb_eq.
  split; [intros [[-> ->] ->]; auto|intros E; inversion E; auto].
Qed.
Lemma row3_mem_iff a l : row3_mem a l = true <-> In a l.
Proof.
  unfold row3_mem. rewrite existsb_exists. split; [intros (x & H & E); apply row3_eqb_iff in E; subst; auto|].
  intros H. exists a. split; auto. apply row3_eqb_iff. auto.
Qed.

Definition good_row (row : list string) : bool := existsb truthy row.
Lemma good_iff row : good_row row = true <-> exists c, In c row /\ c <> EmptyString.
Proof.
  unfold good_row. rewrite existsb_exists. split; intros (c & H & E); exists c; split; auto; unfold truthy in *.
  - destruct (String.eqb_spec c ""); [discriminate|auto].
  - destruct (String.eqb_spec c ""); [easy|auto].
Qed.

Lemma read_spec norm rows : forall acc s, NoDup acc -> read_csv_transformed norm rows acc = Ok s ->
  NoDup s /\ forall r, In r s <-> In r acc \/ csv_row norm rows r.
Proof.
  assert (NIL : forall r, ~ csv_row norm [] r) by (intros r (c1 & c2 & c3 & rest & x & [] & _)).
  assert (CONS : forall row rows r, csv_row norm (row :: rows) r <-> csv_row norm [row] r \/ csv_row norm rows r).
  { intros row rows0 r. split.
    - intros (c1 & c2 & c3 & rest & x & [H|H] & K); [left|right]; exists c1, c2, c3, rest, x; (split; [|exact K]); [left|]; auto.
    - intros [(c1 & c2 & c3 & rest & x & [H|[]] & K)|(c1 & c2 & c3 & rest & x & H & K)]; exists c1, c2, c3, rest, x; (split; [|exact K]); [left|right]; auto. }
  induction rows as [|row rows IH]; intros acc s Hn E; cbn [read_csv_transformed] in E.
  - injection E as <-. split; auto. intros r. split; auto. intros [|Q]; auto. destruct (NIL r Q).
  - change (existsb truthy row) with (good_row row) in E. destruct (good_row row) eqn:G; cbn [negb] in E.
    + assert (SK : (forall c1 c2 c3 rest, row <> c1 :: c2 :: c3 :: rest) -> forall r, ~ csv_row norm [row] r).
      { intros Q r (c1 & c2 & c3 & rest & x & [A|[]] & _). eapply Q; eauto. }
      assert (SKIP : (forall r, ~ csv_row norm [row] r) -> read_csv_transformed norm rows acc = Ok s ->
         NoDup s /\ forall r, In r s <-> In r acc \/ csv_row norm (row :: rows) r).
      { intros Q E'. destruct (IH acc s Hn E') as [A B]. split; auto. intros r. rewrite B, CONS. specialize (Q r). tauto. }
      destruct row as [|c1 [|c2 [|c3 rest]]]; try (apply SKIP; auto; apply SK; intros; discriminate).
      destruct (norm c3) as [x|] eqn:Ex; cbn [bind] in E; [|discriminate].
      assert (ROW : forall r, csv_row norm [c1 :: c2 :: c3 :: rest] r <-> r = (c1, c2, x)).
      { intros r. split.
        - intros (d1 & d2 & d3 & rest' & y & [A|[]] & _ & B & ->). inversion A; subst. congruence.
        - intros ->. exists c1, c2, c3, rest, x. split; [left; auto|]. split; auto. apply good_iff. auto. }
      destruct (row3_mem (c1, c2, x) acc) eqn:M.
      * destruct (IH acc s Hn E) as [A B]. split; auto. intros r. rewrite B, CONS, ROW. apply row3_mem_iff in M.
        split; [tauto|]. intros [H|[->|H]]; auto.
      * assert (~ In (c1, c2, x) acc) by (rewrite <- row3_mem_iff; congruence).
        destruct (IH (acc ++ [(c1, c2, x)]) s) as [A B]; auto.
        { apply nodup_app; auto; [repeat constructor; intros []|]. intros y Hy [<-|[]]. auto. }
        split; auto. intros r. rewrite B, CONS, ROW, in_app_iff. simpl. intuition congruence.
    + destruct (IH acc s Hn E) as [A B]. split; auto. intros r. rewrite B, CONS. split; [tauto|]. intros [H|[H|H]]; auto.
      exfalso. destruct H as (c1 & c2 & c3 & rest & x & [->|[]] & Q & _). apply good_iff in Q. congruence.
Qed.

Lemma read_total norm rows : forall acc,
  (forall c1 c2 c3 rest, In (c1 :: c2 :: c3 :: rest) rows -> exists x, norm c3 = Ok x) ->
  exists s, read_csv_transformed norm rows acc = Ok s.
Proof.
  induction rows as [|row rows IH]; intros acc H; cbn [read_csv_transformed]; [eauto|].
  assert (H' : forall c1 c2 c3 rest, In (c1 :: c2 :: c3 :: rest) rows -> exists x, norm c3 = Ok x) by (intros; eapply H; right; eauto).
  destruct (negb _); [apply IH; auto|]. destruct row as [|c1 [|c2 [|c3 rest]]]; try (apply IH; auto).
  destruct (H c1 c2 c3 rest (or_introl eq_refl)) as [x ->]. cbn [bind]. apply IH; auto.
Qed.

Lemma c38_main norm f1 f2 b : check_bijection_with_permutation norm f1 f2 = Ok b ->
  (b = true <-> forall r, csv_row norm f1 r <-> csv_row norm f2 r).
Proof.
  unfold check_bijection_with_permutation. destruct (read_csv_transformed norm f1 []) as [s1|] eqn:E1; [|discriminate]. cbn [bind].
  destruct (read_csv_transformed norm f2 []) as [s2|] eqn:E2; [|discriminate]. cbn [bind]. intros E. injection E as <-.
  apply read_spec in E1; [|constructor]. apply read_spec in E2; [|constructor]. destruct E1 as [N1 I1], E2 as [N2 I2].
  assert (J1 : forall r, In r s1 <-> csv_row norm f1 r) by (intros r; rewrite I1; simpl; tauto).
  assert (J2 : forall r, In r s2 <-> csv_row norm f2 r) by (intros r; rewrite I2; simpl; tauto).
  assert (FL : forall l, (zlen (filter (fun x => row3_mem x s2) l) =? zlen l) = true <-> forall r, In r l -> In r s2).
  { intros l. assert (LE : forall l, (List.length (filter (fun x => row3_mem x s2) l) <= List.length l)%nat).
    { clear. intros l. induction l as [|x l IH]; simpl; auto. destruct (row3_mem x s2); simpl; lia. }
    rewrite Z.eqb_eq. unfold zlen. induction l as [|x l IH]; [simpl; split; [intros _ r []|auto]|]. cbn [filter].
    destruct (row3_mem x s2) eqn:M; cbn [List.length].
    - apply row3_mem_iff in M. split.
      + intros H r [<-|Hr]; auto. apply IH; auto. lia.
      + intros H. assert (K : forall r, In r l -> In r s2) by (intros; apply H; right; auto). apply IH in K. lia.
    - assert (~ In x s2) by (rewrite <- row3_mem_iff; congruence). specialize (LE l). split; [lia|]. intros H'. destruct H. apply H'. left; auto. }
  rewrite andb_true_iff, FL, Z.eqb_eq. split.
  - intros [L S] r. rewrite <- J1, <- J2. split; [apply S|]. apply (NoDup_length_incl N1); [unfold zlen in L; lia|exact S].
  - intros H. assert (P : Permutation s1 s2) by (apply NoDup_Permutation; auto; intros r; rewrite J1, J2; auto).
    split; [apply Permutation_length in P; unfold zlen; lia|]. intros r Hr. eapply Permutation_in; eauto.
Qed.
Lemma c38_total norm f1 f2 :
  (forall c1 c2 c3 rest, In (c1 :: c2 :: c3 :: rest) (f1 ++ f2) -> exists x, norm c3 = Ok x) ->
  exists b, check_bijection_with_permutation norm f1 f2 = Ok b.
Proof.
  intros H. unfold check_bijection_with_permutation.
  destruct (read_total norm f1 []) as [s1 ->]; [intros; eapply H; apply in_app_iff; eauto|].
  destruct (read_total norm f2 []) as [s2 ->]; [intros; eapply H; apply in_app_iff; eauto|]. cbn [bind]. eauto.
Qed.

(** ** Statements of PropsMisc.v *)
Lemma c29_refuted : exists m n g a b x y, Grassmannian m n = Ok g /\
  in_box m (n - m) a /\ in_box m (n - m) b /\
  qmult_rh g (pS a) (pS b) = Ok x /\ qmult g (pS a) (pS b) = Ok y /\ ~ peq x y.
Proof.
  exists 3, 6. do 1 eexists. exists [3; 2], [3; 3; 1]. do 2 eexists. split; [vm_compute; reflexivity|].
  split; [apply in_boxb_ok; reflexivity|]. split; [apply in_boxb_ok; reflexivity|].
  split; [vm_compute; reflexivity|]. split; [vm_compute; reflexivity|].
  rewrite peq_iff. intros H. apply (f_equal (@List.length _)) in H. vm_compute in H. discriminate.
Qed.
Lemma c30_value n lam c : 1 <= n -> is_partition lam -> 0 <= c ->
  exists p Ts, snd (SchurPol n (lam ++ repz 0 c)) = Ok p /\
    NoDup Ts /\ (forall T, In T Ts <-> ssyt n lam T) /\ Permutation p (map (content n) Ts).
Proof. intros H1 H2 H3. destruct (c30_main n lam c H1 H2 H3) as (p & Ts & E & K). exists p, Ts. rewrite E. auto. Qed.
Lemma c30_rejects n kappa : n < 1 \/ ~ (forall i j, (i <= j)%nat -> 0 <= part kappa j <= part kappa i) ->
  snd (SchurPol n kappa) = Err ValueError.
Proof.
  intros H. destruct (Z.lt_ge_cases n 1) as [Q|Q]; [rewrite c30_bad; auto|]. destruct H as [H|H]; [lia|]. apply c30_not_partition; auto.
Qed.
Lemma c31_effect n lam c : 1 <= n -> is_partition lam -> 0 <= c -> fst (to_polinomial_str (lam ++ repz 0 c) n) = lam.
Proof. intros H1 H2 H3. destruct (c30_main n lam c H1 H2 H3) as (p & Ts & E & _). unfold to_polinomial_str. rewrite E. reflexivity. Qed.

Lemma kstrict_chk k l : forallb (fun j => (part l j <=? k) || (part l (S j) <? part l j)) (seq 0 (List.length l)) = true -> 0 <= k -> kstrict k l.
Proof.
  intros H Hk j Hj. destruct (Nat.lt_ge_cases j (List.length l)) as [Q|Q].
  - rewrite forallb_forall in H. specialize (H j). rewrite in_seq, orb_true_iff, Z.leb_le, Z.ltb_lt in H. destruct H; lia.
  - rewrite part_over in Hj by auto. lia.
Qed.
Lemma c31_refuted : exists m N l, class_OG m N l /\ 1 <= N /\ fst (to_polinomial_str l N) <> l /\
  class_OG m N (fst (to_polinomial_str l N)).
Proof.
  exists 1, 6, [2; 0].
  assert (K : kstrict_in (6 / 2 - 1) 1 (6 - 1 - 1) [2]) by (split; [apply in_boxb_ok; reflexivity|apply kstrict_chk; [reflexivity|vm_compute; discriminate]]).
  split; [|split; [lia|split; [vm_compute; discriminate|]]].
  - right. exists [2]. split; auto. split; [reflexivity|]. split; auto. left. reflexivity.
  - left. exact K.
Qed.
Lemma c40_to_ascii p : (forall a, In a p -> 0 <= a) ->
  exists w, (forall a, In a p -> a <= w) /\ (p <> [] -> In w p) /\
    List.length (partition_to_ascii p) = List.length p /\
    forall i, (i < List.length p)%nat -> shows (nth i (partition_to_ascii p) EmptyString) (part p i) w.
Proof.
  intros H. exists (maxl p). split; [intros a; apply maxl_le|]. split; [|apply c40_ascii; auto].
  intros Hp. destruct p as [|x t]; [easy|]. cbn [maxl]. clear. revert x. induction t as [|y t IH]; intros x; cbn [fold_left]; [left; auto|].
  destruct (IH (Z.max x y)) as [E|E]; [|right; right; auto]. destruct (Z.max_spec x y) as [[_ Q]|[_ Q]]; rewrite <- E, Q; [right; left|left]; auto.
Qed.
Lemma c40_narrow : exists p w h lines s t, is_partition p /\ p <> [] /\ 0 <= w /\ 0 <= h /\
  embed_partition p w h = Ok lines /\ In s lines /\ In t lines /\ String.length s <> String.length t.
Proof.
  exists [3], 2, 2. do 3 eexists. split; [apply (in_boxb_ok 1 3); reflexivity|]. split; [discriminate|]. split; [lia|]. split; [lia|].
  split; [reflexivity|]. split; [left; reflexivity|]. split; [right; left; reflexivity|]. vm_compute. discriminate.
Qed.
Lemma draw_blocks_empty h : forall l first, (exists c b, In (c, b, []) l) -> exists e, draw_blocks first h l = Err e.
Proof.
  induction l as [|[[c b] p] l IH]; intros first (c0 & b0 & H); [destruct H|]. cbn [draw_blocks].
  destruct (py_max p) as [w|e] eqn:E; cbn [bind]; [|eauto]. destruct (embed_partition p w h); cbn [bind]; [|eauto].
  destruct (mapM _ _); cbn [bind]; [|eauto]. destruct H as [H|H]; [inversion H; subst; discriminate|].
  destruct (IH false) as [e He]; [eauto|]. rewrite He. cbn [bind]. eauto.
Qed.
Lemma c40_empty_class : (forall w h, embed_partition [] w h = Err IndexError) /\
  forall l, (exists c b, In (c, b, []) l) -> exists e, draw_ascii_partition l = Err e.
Proof.
  split; [reflexivity|]. intros l H. unfold draw_ascii_partition. 
  destruct (draw_blocks_empty (fold_left (fun h x => Z.max h (zlen (snd x))) l 0) l true H) as [e He]. rewrite He. cbn [bind]. eauto.
Qed.
Lemma c42_refuted : exists m N g i l e, OrthogonalGrassmannian m N = Ok g /\ 1 <= m /\ 2 * m < N /\
  class_OG m N l /\ 1 <= i <= N / 2 - m /\ qpieri g i (pS l) = Err e.
Proof.
  exists 8, 18. do 1 eexists. exists 1, [8; 7; 6; 5; 4; 3; 1; 1]. eexists. split; [vm_compute; reflexivity|]. split; [lia|]. split; [lia|].
  split; [|split; [vm_compute; split; discriminate|vm_compute; reflexivity]].
  left. split; [apply in_boxb_ok; reflexivity|apply kstrict_chk; [reflexivity|vm_compute; discriminate]].
Qed.
