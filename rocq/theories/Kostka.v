(** Semistandard tableaux are chains of horizontal strips. *)

From Coq Require Import ZArith List Lia Bool Permutation QArith Qcanon.
From Verif Require Import Py OrderFacts PyFacts ModelPart ModelPoly ModelGr Spec SpecMisc PartFacts PieriA QPieriA RingA FactsA CompsBound LRTab.
Import ListNotations.
Open Scope Z_scope.

(** ** rows *)
Definition low (r : Z) (row : list Z) : list Z := filter (fun x => x <? r) row.
Definition fill (r : Z) (l : Z) (row : list Z) : list Z := row ++ repeat r (Z.to_nat l - length row).
Definition incr (row : list Z) : Prop := forall c, (S c < length row)%nat -> nth c row 0 <= nth (S c) row 0.

Lemma incr_tl x row : incr (x :: row) -> incr row.
Proof. intros H c Hc. apply (H (S c)). simpl. lia. Qed.
Lemma incr_hd x row : incr (x :: row) -> Forall (fun y => x <= y) row.
Proof.
  revert x. induction row as [|y row IH]; intros x H; constructor.
  - apply (H O). simpl. lia.
  - specialize (IH y (incr_tl _ _ H)). specialize (H O ltac:(simpl; lia)). cbn [nth] in H. eapply Forall_impl; [|exact IH]. cbv beta. intros; lia.
Qed.
Lemma low_all r row : Forall (fun y => y < r) row -> low r row = row.
Proof. induction 1; simpl; auto. destruct (Z.ltb_spec x r); [|lia]. f_equal. auto. Qed.
Lemma low_repeat r d : low r (repeat r d) = [].
Proof. unfold low. induction d; simpl; auto. rewrite Z.ltb_irrefl. auto. Qed.
Lemma low_app r a b : low r (a ++ b) = low r a ++ low r b.
Proof. apply filter_app. Qed.
Lemma low_lt r row : Forall (fun y => y < r) (low r row).
Proof. apply Forall_forall. intros x H. apply filter_In in H. lia. Qed.
Lemma low_len r row : (length (low r row) <= length row)%nat.
Proof. unfold low. induction row; simpl; auto. destruct (_ <? _); simpl; lia. Qed.
Lemma low_fill r l row : Forall (fun y => y < r) row -> low r (fill r l row) = row.
Proof. intros H. unfold fill. rewrite low_app, low_repeat, app_nil_r. apply low_all; auto. Qed.
Lemma fill_low r row : incr row -> Forall (fun y => y <= r) row -> fill r (Z.of_nat (length row)) (low r row) = row.
Proof.
  unfold fill. rewrite Nat2Z.id. induction row as [|x row IH]; intros Hi Hr; [reflexivity|]. inversion Hr; subst.
  cbn [low filter]. fold (low r row). destruct (Z.ltb_spec x r).
  - cbn [app length]. f_equal. cbn [Nat.sub]. apply IH; auto. eapply incr_tl; eauto.
  - assert (E : x :: row = repeat r (length (x :: row))).
    { apply Forall_eq_repeat. constructor; [lia|]. apply incr_hd in Hi. rewrite Forall_forall in *. intros y Hy.
      specialize (Hi y Hy). specialize (H2 y Hy). cbv beta in *. lia. }
    assert (E' : low r row = []).
    { cbn [length repeat] in E. injection E as _ E. rewrite E. apply low_repeat. }
    rewrite E'. cbn [app length Nat.sub]. symmetry. exact E.
Qed.
Lemma fill_len r l row : (length row <= Z.to_nat l)%nat -> length (fill r l row) = Z.to_nat l.
Proof. intros H. unfold fill. rewrite app_length, repeat_length. lia. Qed.
Lemma fill_nth r l row c : nth c (fill r l row) 0 = if (c <? length row)%nat then nth c row 0 else if (c <? Z.to_nat l)%nat then r else 0.
Proof.
  unfold fill. destruct (Nat.ltb_spec c (length row)) as [H|H]; [apply app_nth1; auto|]. rewrite app_nth2 by auto.
  destruct (Nat.ltb_spec c (Z.to_nat l)) as [H'|H'].
  - apply nth_repeat_lt || (rewrite (nth_indep _ 0 r) by (rewrite repeat_length; lia); apply nth_repeat).
  - apply nth_overflow. rewrite repeat_length. lia.
Qed.
Lemma low_nth r row c : incr row -> nth c row 0 < r -> (c < length row)%nat -> (c < length (low r row))%nat.
Proof.
  revert c. induction row as [|x row IH]; intros c Hi H Hc; [simpl in Hc; lia|]. cbn [low filter]. fold (low r row).
  destruct (Z.ltb_spec x r) as [Hx|Hx].
  - destruct c as [|c]; cbn [length nth] in *; [lia|]. apply incr_tl in Hi. specialize (IH c Hi H ltac:(lia)). lia.
  - exfalso. destruct c as [|c]; cbn [nth length] in *; [lia|]. apply incr_hd in Hi. rewrite Forall_forall in Hi.
    assert (In (nth c row 0) row) by (apply nth_In; lia). specialize (Hi _ H0). cbv beta in Hi. lia.
Qed.
Lemma low_prefix r row c : incr row -> (c < length (low r row))%nat -> nth c (low r row) 0 = nth c row 0.
Proof.
  revert c. induction row as [|x row IH]; intros c Hi Hc; [simpl in Hc; lia|]. cbn [low filter] in *. fold (low r row) in *.
  destruct (Z.ltb_spec x r) as [Hx|Hx].
  - destruct c as [|c]; cbn [length nth] in *; auto. apply IH; [eapply incr_tl; eauto|lia].
  - exfalso. assert (E : low r row = []); [|rewrite E in Hc; simpl in Hc; lia]. apply incr_hd in Hi. clear -Hi Hx.
    induction Hi as [|y row Hy Hi IH]; [reflexivity|]. cbn [low filter]. destruct (Z.ltb_spec y r); [lia|auto].
Qed.
Lemma cnt_repeat v r d : cnt v (repeat r d) = if Z.eq_dec r v then Z.of_nat d else 0.
Proof.
  induction d as [|d IH]; [cbn; destruct (Z.eq_dec r v); reflexivity|]. cbn [repeat]. rewrite cnt_cons, IH. destruct (Z.eq_dec r v); lia.
Qed.
Lemma cnt_app v a b : cnt v (a ++ b) = cnt v a + cnt v b.
Proof. unfold cnt. rewrite count_occ_app. lia. Qed.

(** ** tableaux *)
Definition cut (r : Z) (T : list (list Z)) : list (list Z) := map (low r) T.
Fixpoint grow (r : Z) (nu : list Z) (T : list (list Z)) : list (list Z) :=
  match nu, T with
  | l :: nu', row :: T' => fill r l row :: grow r nu' T'
  | _, _ => []
  end.
Definition shape (T : list (list Z)) : list Z := map (fun row => Z.of_nat (length row)) T.

Lemma nth_map_nil {A B} (f : list A -> list B) T i : f [] = [] -> nth i (map f T) [] = f (nth i T []).
Proof. intros H. rewrite <- H at 1. apply map_nth. Qed.
Lemma nth_cut r T i : nth i (cut r T) [] = low r (nth i T []).
Proof. apply nth_map_nil. reflexivity. Qed.
Lemma part_shape T i : part (shape T) i = Z.of_nat (length (nth i T [])).
Proof. unfold part, shape. change 0 with ((fun row : list Z => Z.of_nat (length row)) []). apply map_nth. Qed.
Lemma grow_length r : forall nu T, length nu = length T -> length (grow r nu T) = length T.
Proof. induction nu as [|l nu IH]; intros [|row T] H; simpl in *; try lia. rewrite IH; lia. Qed.
Lemma nth_grow r : forall nu T i, length nu = length T -> (i < length T)%nat -> nth i (grow r nu T) [] = fill r (part nu i) (nth i T []).
Proof.
  induction nu as [|l nu IH]; intros [|row T] i H Hi; simpl in *; try lia. destruct i as [|i]; [reflexivity|]. apply IH; lia.
Qed.
Lemma shape_ssyt r nu T : ssyt r nu T -> shape T = nu.
Proof.
  intros (L & R & _). apply nth_ext with (d := 0) (d' := 0); [unfold shape; rewrite map_length; auto|].
  intros i Hi. unfold shape in Hi. rewrite map_length in Hi. fold (part (shape T) i). rewrite part_shape. apply R; auto.
Qed.

Lemma cut_ssyt r nu T : (forall i, part nu (S i) <= part nu i) -> ssyt r nu T -> ssyt (r - 1) (shape (cut r T)) (cut r T) /\
  (forall i, part (shape (cut r T)) i <= part nu i) /\ (forall i, part nu (S i) <= part (shape (cut r T)) i) /\ grow r nu (cut r T) = T.
Proof.
  intros Hd (L & R & E & W & C).
  assert (HI : forall i, incr (nth i T [])) by (intros i c Hc; apply W; auto).
  assert (HN : forall i, part nu i = Z.of_nat (length (nth i T []))).
  { intros i. destruct (Nat.lt_ge_cases i (length T)); [symmetry; apply R; auto|]. unfold part. rewrite !nth_overflow by lia. reflexivity. }
  split; [split; [|split; [|split; [|split]]]|split; [|split]].
  - unfold shape. rewrite map_length. reflexivity.
  - intros i Hi. rewrite part_shape. reflexivity.
  - intros i c Hc. unfold entry. rewrite nth_cut in *. rewrite low_prefix by auto.
    pose proof (low_len r (nth i T [])). specialize (E i c ltac:(lia)). unfold entry in E.
    assert (nth c (nth i T []) 0 < r); [|lia].
    rewrite <- low_prefix with (r := r) by auto. pose proof (low_lt r (nth i T [])) as F. rewrite Forall_forall in F. apply F, nth_In; auto.
  - intros i c Hc. unfold entry. rewrite nth_cut in *. rewrite !low_prefix by (auto; lia). apply W. pose proof (low_len r (nth i T [])). lia.
  - intros i c Hc. unfold entry. rewrite nth_cut in *. rewrite nth_cut.
    pose proof (low_len r (nth (S i) T [])) as HL. specialize (C i c ltac:(lia)). unfold entry in C.
    rewrite (low_prefix r (nth (S i) T [])) by auto. 
    assert (Hlt : nth c (nth (S i) T []) 0 < r).
    { rewrite <- low_prefix with (r := r) by auto. pose proof (low_lt r (nth (S i) T [])) as F. rewrite Forall_forall in F. apply F, nth_In; auto. }
    destruct (Nat.lt_ge_cases c (length (nth i T []))) as [H|H].
    + rewrite low_prefix; auto. apply low_nth; auto; lia.
    + specialize (E (S i) c ltac:(lia)). unfold entry in E. rewrite (nth_overflow (low r (nth i T []))); [lia|].
      pose proof (low_len r (nth i T [])). lia.
  - intros i. rewrite part_shape, nth_cut, HN. pose proof (low_len r (nth i T [])). lia.
  - intros i. rewrite part_shape, nth_cut, HN. destruct (length (nth (S i) T [])) as [|c] eqn:Ec; [lia|].
    specialize (C i c ltac:(lia)). specialize (E (S i) c ltac:(lia)). unfold entry in *.
    assert (H : (c < length (nth i T []))%nat) by (specialize (Hd i); rewrite !HN in Hd; lia).
    pose proof (low_nth r (nth i T []) c (HI i) ltac:(lia) H). lia.
  - assert (LN : length nu = length (cut r T)) by (unfold cut; rewrite map_length; auto).
    assert (LC : length (cut r T) = length T) by (unfold cut; apply map_length).
    apply nth_ext with (d := []) (d' := []); [rewrite grow_length; auto|].
    intros i Hi. rewrite grow_length in Hi by auto. rewrite nth_grow, nth_cut by auto. rewrite HN. apply fill_low; auto.
    apply Forall_forall. intros x Hx. apply (In_nth _ _ 0) in Hx. destruct Hx as (c & Hc & <-). apply E; auto.
Qed.

Lemma grow_ssyt r nu mu T : 1 <= r -> length nu = length mu -> (forall i, 0 <= part mu i <= part nu i) -> (forall i, part nu (S i) <= part mu i) ->
  ssyt (r - 1) mu T -> ssyt r nu (grow r nu T) /\ cut r (grow r nu T) = T.
Proof.
  intros Hr Ln H1 H2 (L & R & E & W & C).
  assert (LN : length nu = length T) by lia.
  assert (HM : forall i, part mu i = Z.of_nat (length (nth i T []))).
  { intros i. destruct (Nat.lt_ge_cases i (length T)); [symmetry; apply R; auto|]. unfold part. rewrite !nth_overflow by lia. reflexivity. }
  assert (HR : forall i, length (nth i (grow r nu T) []) = Z.to_nat (part nu i)).
  { intros i. destruct (Nat.lt_ge_cases i (length T)).
    - rewrite nth_grow by auto. apply fill_len. specialize (H1 i). rewrite HM in H1. lia.
    - rewrite nth_overflow by (rewrite grow_length; auto). unfold part. rewrite nth_overflow by lia. reflexivity. }
  assert (HE : forall i c, (c < Z.to_nat (part nu i))%nat -> entry (grow r nu T) i c = if (c <? length (nth i T []))%nat then entry T i c else r).
  { intros i c Hc. destruct (Nat.lt_ge_cases i (length T)).
    - unfold entry. rewrite nth_grow, fill_nth by auto. destruct (_ <? _)%nat; auto. destruct (Nat.ltb_spec c (Z.to_nat (part nu i))); [auto|lia].
    - unfold part in Hc. rewrite nth_overflow in Hc by lia. lia. }
  split; [split; [|split; [|split; [|split]]]|].
  - rewrite grow_length; auto.
  - intros i _. rewrite HR. specialize (H1 i). lia.
  - intros i c Hc. rewrite HR in Hc. rewrite HE by auto. destruct (Nat.ltb_spec c (length (nth i T []))) as [H|H]; [|lia]. specialize (E i c H). lia.
  - intros i c Hc. rewrite HR in Hc. rewrite !HE by lia. destruct (Nat.ltb_spec (S c) (length (nth i T []))) as [H|H].
    + destruct (Nat.ltb_spec c (length (nth i T []))); [|lia]. apply W; auto.
    + destruct (Nat.ltb_spec c (length (nth i T []))) as [H'|H']; [|lia]. specialize (E i c H'). lia.
  - intros i c Hc. rewrite HR in Hc. rewrite (HE (S i)) by auto.
    assert (Hi : (c < length (nth i T []))%nat) by (specialize (H2 i); rewrite HM in H2; lia).
    rewrite (HE i) by (specialize (H1 i); rewrite HM in H1; lia). destruct (Nat.ltb_spec c (length (nth i T []))); [|lia].
    destruct (Nat.ltb_spec c (length (nth (S i) T []))) as [H'|H']; [apply C; auto|]. specialize (E i c Hi). lia.
  - apply nth_ext with (d := []) (d' := []); [unfold cut; rewrite map_length, grow_length; auto|].
    intros i Hi. unfold cut in Hi. rewrite map_length, grow_length in Hi by auto. rewrite nth_cut, nth_grow by auto. apply low_fill.
    apply Forall_forall. intros x Hx. apply (In_nth _ _ 0) in Hx. destruct Hx as (c & Hc & <-). specialize (E i c Hc). unfold entry in E. lia.
Qed.

(** the contents *)
Lemma cnt_low v r row : v < r -> cnt v (low r row) = cnt v row.
Proof.
  intros H. induction row as [|x row IH]; [reflexivity|]. cbn [low filter]. fold (low r row). destruct (Z.ltb_spec x r); rewrite ?cnt_cons, IH; auto.
  destruct (Z.eq_dec x v); lia.
Qed.
Lemma cnt_cut v r T : v < r -> cnt v (concat (cut r T)) = cnt v (concat T).
Proof. intros H. induction T as [|row T IH]; [reflexivity|]. cbn [cut map concat]. fold (cut r T). rewrite !cnt_app, IH, cnt_low; auto. Qed.
Lemma len_low r row : Forall (fun x => x <= r) row -> Z.of_nat (length (low r row)) + cnt r row = Z.of_nat (length row).
Proof.
  induction 1 as [|x row Hx Hr IH]; [reflexivity|]. cbn [low filter]. fold (low r row). rewrite cnt_cons.
  destruct (Z.ltb_spec x r); destruct (Z.eq_dec x r); cbn [length]; lia.
Qed.
Lemma sum_cut r T : Forall (Forall (fun x => x <= r)) T -> zsum (shape (cut r T)) + cnt r (concat T) = zsum (shape T).
Proof.
  induction 1 as [|row T Hr HT IH]; [reflexivity|]. cbn [cut map concat shape]. fold (cut r T). fold (shape (cut r T)) (shape T).
  rewrite cnt_app. change (zsum (?a :: ?b)) with (a + zsum b). pose proof (len_low r row Hr). lia.
Qed.
Lemma vec_snoc n : forall v l, vec v (S n) l = vec v n l ++ [cnt (v + Z.of_nat n) l].
Proof.
  induction n as [|n IH]; intros v l; [cbn [vec app]; do 2 f_equal; lia|]. change (vec v (S (S n)) l) with (cnt v l :: vec (v + 1) (S n) l). rewrite IH.
  cbn [vec app]. do 4 f_equal. lia.
Qed.
Lemma vec_cut r T n : Z.of_nat n < r -> vec 1 n (concat (cut r T)) = vec 1 n (concat T).
Proof.
  intros H. rewrite !vec_map. apply map_ext_in. intros v Hv. apply in_zrange in Hv. apply cnt_cut. lia.
Qed.

Section Chains.
Variables m k : Z.
Hypothesis Hm : 1 <= m.
Hypothesis Hk : 0 <= k.
Notation Mn := (Z.to_nat m).

(** the tableaux with content [rev c], with their shapes *)
Fixpoint Ts (c : list Z) : list (list Z * list (list Z)) :=
  match c with
  | [] => [(repeat 0 Mn, repeat [] Mn)]
  | i :: c' => flat_map (fun x => map (fun y => (snd y, grow (Z.of_nat (length c)) (snd y) (snd x))) (EA m k false i (fst x))) (Ts c')
  end.

Lemma wbox_facts nu : wbox m k nu -> length nu = Mn /\ (forall i, 0 <= part nu i) /\ (forall i, part nu (S i) <= part nu i) /\ part nu 0 <= k.
Proof.
  intros H. pose proof (wbox_in_box m k nu Hk H) as (P & _ & P0). destruct H as [_ L]. rewrite part_clip_part in P0.
  split; [unfold zlen in L; lia|]. split; [|split; [|exact P0]].
  - intros i. rewrite <- part_clip_part. apply is_partition_nonneg; auto.
  - intros i. rewrite <- !(part_clip_part nu). apply P.
Qed.
Lemma intl_facts mu nu : wbox m k mu -> (intl k mu nu <-> wbox m k nu /\ (forall i, part mu i <= part nu i) /\ forall i, part nu (S i) <= part mu i).
Proof.
  intros Hw. destruct (wbox_facts mu Hw) as (L & N & _). rewrite intl_part. split.
  - intros H. assert (Hn : wbox m k nu) by (eapply (intl_wbox m k); eauto; apply intl_part; exact H). split; auto.
    destruct H as (L' & H1 & H2 & H3). split; intros i.
    + destruct (Nat.lt_ge_cases i (length mu)); auto. unfold part. rewrite !nth_overflow by lia. lia.
    + destruct (Nat.lt_ge_cases (S i) (length mu)); auto. unfold part at 1. rewrite nth_overflow by lia. apply N.
  - intros (Hn & H1 & H2). destruct (wbox_facts nu Hn) as (L' & _ & _ & K). repeat split; auto. lia.
Qed.

Lemma Ts_in c : forall nu T, In (nu, T) (Ts c) <->
  wbox m k nu /\ ssyt (Z.of_nat (length c)) nu T /\ vec 1 (length c) (concat T) = rev c.
Proof.
  induction c as [|i c IH]; intros nu T.
  - cbn [Ts In length vec rev]. split.
    + intros [E|[]]. injection E as <- <-.
      assert (NT : forall i, nth i (repeat (@nil Z) Mn) [] = []) by (intros i; apply nth_repeat).
      split; [|split; [|reflexivity]].
      * apply wbox_part; auto. unfold zlen, part. rewrite repeat_length. split; [lia|]. split; intros j _; rewrite !nth_repeat; lia.
      * split; [rewrite !repeat_length; auto|]. split; [intros j _; rewrite NT; unfold part; rewrite nth_repeat; reflexivity|].
        split; [|split]; intros j c; rewrite NT; simpl; lia.
    + intros (Hw & (L & R & E & _) & _). left. destruct (wbox_facts nu Hw) as (Ln & N & _).
      assert (NT : forall i, nth i T [] = []).
      { intros i. destruct (nth i T []) eqn:En; auto. specialize (E i O). rewrite En in E. cbn in E. specialize (E ltac:(lia)). lia. }
      f_equal.
      * apply nth_ext with (d := 0) (d' := 0); [rewrite repeat_length; auto|]. intros i Hi. rewrite repeat_length in Hi. rewrite nth_repeat.
        symmetry. fold (part nu i). rewrite <- R by lia. rewrite NT. reflexivity.
      * apply nth_ext with (d := []) (d' := []); [rewrite repeat_length; lia|]. intros i Hi. rewrite NT. apply nth_repeat.
  - cbn [Ts]. rewrite in_flat_map. set (r := Z.of_nat (length (i :: c))). assert (Er : r - 1 = Z.of_nat (length c)) by (unfold r; cbn [length]; lia).
    cbn [rev]. cbn [length]. rewrite vec_snoc. replace (1 + Z.of_nat (length c)) with r by lia. split.
    + intros ([mu T'] & Hx & H). apply in_map_iff in H. destruct H as ([d y] & E & Hy). cbn [fst snd] in *. injection E as -> <-.
      apply IH in Hx. destruct Hx as (Hw & HS & HV). apply (EA_in m k Hm Hk) in Hy; auto. destruct Hy as [(-> & H1 & H2)|(? & _)]; [|discriminate].
      apply intl_facts in H1; auto. destruct H1 as (Hn & H3 & H4). destruct (wbox_facts mu Hw) as (L & N & _). destruct (wbox_facts nu Hn) as (L' & _).
      destruct (grow_ssyt r nu mu T') as [HG HC]; auto; try lia; [rewrite Er; auto|].
      split; auto. split; auto. f_equal.
      * rewrite <- HV. rewrite <- HC at 2. symmetry. apply vec_cut. lia.
      * f_equal. pose proof (sum_cut r (grow r nu T')) as SC. rewrite HC, (shape_ssyt _ _ _ HS), (shape_ssyt _ _ _ HG) in SC.
        assert (Forall (Forall (fun x => x <= r)) (grow r nu T')); [|specialize (SC H); lia].
        destruct HG as (_ & _ & E & _). apply Forall_forall. intros row Hr. apply (In_nth _ _ []) in Hr. destruct Hr as (j & Hj & <-).
        apply Forall_forall. intros x Hx. apply (In_nth _ _ 0) in Hx. destruct Hx as (c0 & Hc & <-). apply E; auto.
    + intros (Hw & HS & HV). apply app_inj_tail in HV. destruct HV as [HV Hi]. destruct (wbox_facts nu Hw) as (L & N & D & K).
      destruct (cut_ssyt r nu T D HS) as (H1 & H2 & H3 & H4).
      assert (Hmu : wbox m k (shape (cut r T))). { apply wbox_part; auto. split; [unfold shape, zlen; rewrite map_length; unfold cut; rewrite map_length; destruct HS as (LT & _); lia|].
        split; intros j _.
        - rewrite part_shape at 1. specialize (H2 j). assert (part nu j <= part nu 0) by (clear -D; induction j; [lia|specialize (D j); lia]). rewrite part_shape in *. lia.
        - specialize (H2 (S j)). specialize (H3 j). lia. }
      exists (shape (cut r T), cut r T). split.
      * apply IH. split; auto. split; [rewrite <- Er; auto|]. rewrite vec_cut by lia. exact HV.
      * apply in_map_iff. exists (0%nat, nu). cbn [fst snd]. rewrite H4. split; auto. apply (EA_in m k Hm Hk); auto. left. split; auto. split.
        -- apply intl_facts; auto.
        -- pose proof (sum_cut r T) as SC. rewrite (shape_ssyt _ _ _ HS) in SC.
           assert (Forall (Forall (fun x => x <= r)) T); [|specialize (SC H); lia].
           destruct HS as (_ & _ & E & _). apply Forall_forall. intros row Hr. apply (In_nth _ _ []) in Hr. destruct Hr as (j & Hj & <-).
           apply Forall_forall. intros x Hx. apply (In_nth _ _ 0) in Hx. destruct Hx as (c0 & Hc & <-). apply E; auto.
Qed.

Lemma Ts_ssyt c x : In x (Ts c) -> wbox m k (fst x) /\ ssyt (Z.of_nat (length c)) (fst x) (snd x).
Proof. destruct x as [nu T]. intros H. apply Ts_in in H. cbn [fst snd]. tauto. Qed.
Lemma Ts_nodup c : NoDup (Ts c).
Proof.
  induction c as [|i c IH]; cbn [Ts]; [repeat constructor; auto|]. set (r := Z.of_nat (length (i :: c))).
  assert (Er : r - 1 = Z.of_nat (length c)) by (unfold r; cbn [length]; lia).
  assert (CUT : forall x y, In x (Ts c) -> In y (EA m k false i (fst x)) -> cut r (grow r (snd y) (snd x)) = snd x /\ shape (snd x) = fst x /\ fst y = 0%nat).
  { intros [mu T] [d nu] Hx Hy. destruct (Ts_ssyt c _ Hx) as [Hw HS]. cbn [fst snd] in *. apply (EA_in m k Hm Hk) in Hy; auto.
    destruct Hy as [(-> & H1 & H2)|(? & _)]; [|discriminate]. apply intl_facts in H1; auto. destruct H1 as (Hn & H3 & H4).
    destruct (wbox_facts mu Hw) as (L & N & _). destruct (wbox_facts nu Hn) as (L' & _). split; [|split; [eapply shape_ssyt; eauto|auto]].
    apply (grow_ssyt r nu mu T); auto; try lia. rewrite Er. auto. }
  apply nodup_flat; auto.
  - intros x Hx. pose proof (EA_nodup m k false i (fst x)) as ND. 
    assert (G : forall l, (forall y, In y l -> In y (EA m k false i (fst x))) -> NoDup l -> NoDup (map (fun y => (snd y, grow r (snd y) (snd x))) l)).
    { induction l as [|y l IHl]; intros Hl Hn; cbn [map]; [constructor|]. inversion Hn; subst. constructor; [|apply IHl; auto; intros; apply Hl; right; auto].
      intros Hi. apply in_map_iff in Hi. destruct Hi as (z & Ez & Hz). injection Ez as E1 _. apply H1.
      destruct (CUT x y Hx (Hl y (or_introl eq_refl))) as (_ & _ & F1). destruct (CUT x z Hx (Hl z (or_intror Hz))) as (_ & _ & F2).
      destruct y, z. cbn [fst snd] in *. subst. auto. }
    apply G; auto.
  - intros x y z Hx Hy H1 H2. apply in_map_iff in H1. destruct H1 as (a & <- & Ha). apply in_map_iff in H2. destruct H2 as (b & E & Hb).
    injection E as E1 E2. destruct (CUT x a Hx Ha) as (C1 & S1 & _). destruct (CUT y b Hy Hb) as (C2 & S2 & _). rewrite E2 in C2.
    assert (snd x = snd y) by congruence. destruct x, y. cbn [fst snd] in *. congruence.
Qed.
End Chains.
