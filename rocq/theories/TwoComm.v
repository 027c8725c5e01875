(** The quantum Pieri operators of OG(n,2n+2), n <= 7, commute.  These are all the
    spaces with two quantum parameters on which qpieri returns combinations of
    classes (C42), so the proof is a computation on each of the seven spaces, with a
    table of the values of qpieri. *)

From Coq Require Import ZArith List Lia Bool Permutation QArith Qcanon Setoid Morphisms.
From Verif Require Import Py OrderFacts PyFacts ModelPart ModelQcalc ModelPoly ModelStr ModelGr Spec SpecPieri PolyFacts SuppFacts Conv Enum Schub ExprFacts OpTheory RingD.
Import ListNotations.
Open Scope Z_scope.

Section Tab.
Variable F : Z -> list Z -> res poly.
Definition row := (list Z * list (Z * res poly))%type.
Inductive trie := TL | TN (v : option row) (a b : trie).
Fixpoint tget (t : trie) (k : positive) : option row :=
  match t with
  | TL => None
  | TN v a b => match k with xH => v | xO k => tget a k | xI k => tget b k end
  end.
Fixpoint tput (t : trie) (k : positive) (r : row) : trie :=
  match t, k with
  | TL, xH => TN (Some r) TL TL
  | TL, xO k => TN None (tput TL k r) TL
  | TL, xI k => TN None TL (tput TL k r)
  | TN v a b, xH => TN (Some r) a b
  | TN v a b, xO k => TN v (tput a k r) b
  | TN v a b, xI k => TN v a (tput b k r)
  end.
Definition enc (l : list Z) : positive := fold_left (fun a x => Z.to_pos (Z.shiftl (Zpos a) 5 + x)) l 1%positive.
Definition row_of (I : list Z) (l : list Z) : row := (l, map (fun i => (i, F i l)) I).
Definition build (I : list Z) (ls : list (list Z)) : trie := fold_left (fun t l => tput t (enc l) (row_of I l)) ls TL.
Fixpoint assoc (i : Z) (rs : list (Z * res poly)) : option (res poly) :=
  match rs with [] => None | (j, r) :: t => if j =? i then Some r else assoc i t end.
Definition get (t : trie) (i : Z) (l : list Z) : res poly :=
  match tget t (enc l) with
  | Some (l', rs) => if zlist_eqb l' l then match assoc i rs with Some r => r | None => F i l end else F i l
  | None => F i l
  end.
Definition comm1 (t : trie) (i j : Z) (l : list Z) : bool :=
  match get t i l, get t j l with
  | Ok x, Ok y =>
      match apply_lc (on_part (get t j)) x, apply_lc (on_part (get t i)) y with
      | Ok a, Ok b => match psub a b with [] => true | _ => false end
      | _, _ => false
      end
  | _, _ => false
  end.
Definition comm (I : list Z) (ls : list (list Z)) : bool :=
  let t := build I ls in
  forallb (fun l => forallb (fun i => forallb (fun j => if i <? j then comm1 t i j l else true) I) I) ls.

Fixpoint tall (R : row -> Prop) (t : trie) : Prop :=
  match t with TL => True | TN v a b => match v with Some r => R r | None => True end /\ tall R a /\ tall R b end.
Lemma tall_put R k : forall t r, tall R t -> R r -> tall R (tput t k r).
Proof.
  induction k as [k IH|k IH|]; intros [|v a b] r; cbn [tput tall]; intros Ht Hr; repeat split; try tauto; apply IH; cbn; tauto.
Qed.
Lemma tall_get R k : forall t r, tall R t -> tget t k = Some r -> R r.
Proof.
  induction k as [k IH|k IH|]; intros [|v a b] r; cbn [tget tall]; intros Ht E; try discriminate; try (eapply IH; [|exact E]; tauto).
  subst v. tauto.
Qed.
Definition row_ok (I : list Z) (r : row) : Prop := exists l, r = row_of I l.
Lemma build_ok I ls : tall (row_ok I) (build I ls).
Proof.
  unfold build. assert (G : forall t, tall (row_ok I) t -> tall (row_ok I) (fold_left (fun t l => tput t (enc l) (row_of I l)) ls t)).
  { induction ls as [|l ls IH]; intros t Ht; [exact Ht|]. cbn [fold_left]. apply IH. apply tall_put; auto. exists l. reflexivity. }
  apply G. exact Logic.I.
Qed.
Lemma assoc_ok I i l r : assoc i (map (fun i => (i, F i l)) I) = Some r -> r = F i l.
Proof.
  induction I as [|j I IH]; cbn [map assoc]; [discriminate|]. destruct (Z.eqb_spec j i) as [->|]; [congruence|auto].
Qed.
Lemma get_ok I t i l : tall (row_ok I) t -> get t i l = F i l.
Proof.
  intros Ht. unfold get. destruct (tget t (enc l)) as [[l' rs]|] eqn:E; [|reflexivity].
  destruct (tall_get _ _ _ _ Ht E) as (l0 & E0). inversion E0; subst l' rs.
  destruct (zlist_eqb l0 l) eqn:El; [|reflexivity]. apply zlist_eqb_eq in El. subst l0.
  destruct (assoc i _) eqn:Ea; [|reflexivity]. apply assoc_ok in Ea. auto.
Qed.
Lemma apply_lc_ext f g p : (forall s, f s = g s) -> apply_lc f p = apply_lc g p.
Proof.
  intros H. unfold apply_lc. assert (Hm : forall m, mapply f m = mapply g m).
  { induction m as [|v m IH]; [reflexivity|]. cbn [mapply]. rewrite IH. destruct v; cbn [image]; rewrite ?H; reflexivity. }
  generalize (pnorm p). induction p0 as [|[m c] q IH]; [reflexivity|]. cbn [tapply]. rewrite Hm, IH. reflexivity.
Qed.
Lemma val_sigma j v : val (on_part (F j)) v = sigma F j v.
Proof. unfold val, sigma. destruct v as [[l|? ?]| | |]; cbn [image on_part]; reflexivity. Qed.
Lemma ext_val j x a : apply_lc (on_part (F j)) x = Ok a -> peq a (ext F j x).
Proof.
  intros H. apply apply_lc_val' in H. rewrite H. unfold ext. apply psubst_ext. intros m c v _ _. rewrite val_sigma. reflexivity.
Qed.
Lemma comm1_ok I t i j l : tall (row_ok I) t -> comm1 t i j l = true -> peq (ext F j (P F i l)) (ext F i (P F j l)).
Proof.
  intros Ht. unfold comm1. rewrite !(get_ok I) by auto. unfold P. destruct (F i l) as [x|] eqn:Ei; [|discriminate]. destruct (F j l) as [y|] eqn:Ej; [|discriminate].
  rewrite (apply_lc_ext (on_part (get t j)) (on_part (F j))) by (intros [s|? ?]; [apply (get_ok I); auto|reflexivity]).
  rewrite (apply_lc_ext (on_part (get t i)) (on_part (F i))) by (intros [s|? ?]; [apply (get_ok I); auto|reflexivity]).
  destruct (apply_lc (on_part (F j)) x) as [a|] eqn:Ea; [|discriminate]. destruct (apply_lc (on_part (F i)) y) as [b|] eqn:Eb; [|discriminate].
  destruct (psub a b) eqn:Es; [|discriminate]. intros _. rewrite <- (ext_val _ _ _ Ea), <- (ext_val _ _ _ Eb).
  assert (H0 : peq (psub a b) pzero) by (rewrite Es; reflexivity).
  transitivity (padd (psub a b) b); [ring|]. rewrite H0. ring.
Qed.
Lemma comm_ok I ls i j l : comm I ls = true -> In i I -> In j I -> In l ls -> peq (ext F j (P F i l)) (ext F i (P F j l)).
Proof.
  intros H Hi Hj Hl. unfold comm in H. cbv zeta in H. rewrite forallb_forall in H. specialize (H l Hl).
  assert (G : forall a b, In a I -> In b I -> a < b -> peq (ext F b (P F a l)) (ext F a (P F b l))).
  { intros a b Ha Hb Hab. rewrite forallb_forall in H. specialize (H a Ha). rewrite forallb_forall in H. specialize (H b Hb).
    destruct (Z.ltb_spec a b); [|lia]. eapply comm1_ok; [apply build_ok|exact H]. }
  destruct (Z.lt_trichotomy i j) as [L|[->|L]]; [auto|reflexivity|]. symmetry. auto.
Qed.
End Tab.

Definition F1 (n : Z) (i : Z) (l : list Z) : res poly := qpieriD_inner (mkGr TD 1 n) i l 1 n.
Definition ix (n : Z) : list Z := -1 :: zrange 1 (n + 2).
Definition cls (n : Z) : list (list Z) := match schub_classes (mkGr TD 1 n) with Ok l => l | Err _ => [] end.
Definition ck (n : Z) : bool := comm (F1 n) (ix n) (cls n).

Lemma ck_1 : ck 1 = true. Proof. vm_cast_no_check (eq_refl true). Qed.
Lemma ck_2 : ck 2 = true. Proof. vm_cast_no_check (eq_refl true). Qed.
Lemma ck_3 : ck 3 = true. Proof. vm_cast_no_check (eq_refl true). Qed.
Lemma ck_4 : ck 4 = true. Proof. vm_cast_no_check (eq_refl true). Qed.
Lemma ck_5 : ck 5 = true. Proof. vm_cast_no_check (eq_refl true). Qed.
Lemma ck_6 : ck 6 = true. Proof. vm_cast_no_check (eq_refl true). Qed.
Lemma ck_7 : ck 7 = true. Proof. vm_cast_no_check (eq_refl true). Qed.
Lemma comm_D1 n i j l : 1 <= n <= 7 -> ID 1 n i -> ID 1 n j -> typed_in 1 n (n + 1) l ->
  peq (ext (qpieri_fun (gD 1 n)) j (P (qpieri_fun (gD 1 n)) i l)) (ext (qpieri_fun (gD 1 n)) i (P (qpieri_fun (gD 1 n)) j l)).
Proof.
  intros Hn Hi Hj Hl.
  assert (HI : forall a, ID 1 n a -> In a (ix n)).
  { intros a [Ha|Ha]; unfold ix; [right; apply in_zrange; lia|left; lia]. }
  assert (HC : In l (cls n)).
  { unfold cls. destruct (schub_D 1 n ltac:(lia) ltac:(lia)) as (L & -> & _ & HL). apply HL. replace (n + 1 - 1) with n by lia. exact Hl. }
  assert (HK : ck n = true).
  { assert (n = 1 \/ n = 2 \/ n = 3 \/ n = 4 \/ n = 5 \/ n = 6 \/ n = 7) as D by lia. clear - D.
    destruct D as [->|[->|[->|[->|[->|[->| ->]]]]]]; [exact ck_1|exact ck_2|exact ck_3|exact ck_4|exact ck_5|exact ck_6|exact ck_7]. }
  apply (comm_ok (F1 n) (ix n) (cls n) i j l HK); auto.
Qed.
