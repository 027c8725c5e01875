(** C74: the functions of the module qcalc that read its module variables. *)

From Coq Require Import ZArith List QArith Qcanon.
From Verif Require Import Py ModelPart ModelQcalc ModelPoly ModelStr ModelGr ModelList ModelModule Spec SpecProd ApiModule.
Import ListNotations.
Open Scope Z_scope.

(** After the module variables are set to the attributes of a Grassmannian, the
    functions return what its methods return, *)
Theorem C74_set : forall g,
  (forall i lc, q_pieri (SetAs g) i lc = pieri g i lc) /\ (forall i lc, q_qpieri (SetAs g) i lc = qpieri g i lc) /\
  (forall e lc, q_act (SetAs g) e lc = act g e lc) /\ (forall e lc, q_qact (SetAs g) e lc = qact g e lc) /\
  (forall lc, q_part2index (SetAs g) lc = part2index g lc) /\ (forall lc, q_index2part (SetAs g) lc = index2part g lc) /\
  (g_type g <> TA -> (forall lc, q_part2pair (SetAs g) lc = part2pair g lc) /\ (forall lc, q_pair2part (SetAs g) lc = pair2part g lc)) /\
  (forall lam, q_schub_type (SetAs g) lam = schub_type g lam).
Proof. exact c74_set. Qed.
Print Assumptions C74_set.
(** and the index conversions of a list of nonnegative integers those of the
    class (the methods themselves raise there, C34). *)
Theorem C74_set_list : forall g l, schur_nonneg (SP l) = true ->
  q_part2index_list (SetAs g) l = part2index g (pS l) /\ q_index2part_list (SetAs g) l = index2part g (pS l).
Proof. exact c74_set_list. Qed.
Print Assumptions C74_set_list.

(** In type A the conversions to and from pairs raise, as the methods do. *)
Theorem C74_set_A : forall g, g_type g = TA -> forall lc l t b,
  q_part2pair (SetAs g) lc = Err PlainException /\ q_pair2part (SetAs g) lc = Err PlainException /\
  q_part2pair_list (SetAs g) l = Err PlainException /\ q_pair2part_list (SetAs g) t b = Err PlainException /\
  (exists e, part2pair g lc = Err e) /\ (exists e, pair2part g lc = Err e).
Proof. exact c74_set_A. Qed.
Print Assumptions C74_set_A.
(** Lists in place of classes: [pieri], and the pairs outside of type A. *)
Theorem C74_pieri_list : forall g i l, q_pieri_list (SetAs g) i l = pieri_list g i l.
Proof. exact c74_pieri_list. Qed.
Print Assumptions C74_pieri_list.
Theorem C74_pair_list : forall g, g_type g <> TA ->
  (forall l, exists t b, q_part2pair_list (SetAs g) l = Ok (SPair t b) /\
     (schur_nonneg (SPair t b) = true -> exists r, part2pair g (pS l) = Ok r /\ peq r (pvar (VS (SPair t b))))) /\
  (forall t b a, q_pair2part_list (SetAs g) t b = Ok (SP a) ->
     schur_nonneg (SP a) = true -> exists r, pair2part g (pvar (VS (SPair t b))) = Ok r /\ peq r (pS a)).
Proof. exact c74_pair_list. Qed.
Print Assumptions C74_pair_list.

(** Before that they raise as soon as a class occurs in the argument; *)
Theorem C74_unset : forall lc, has_class lc ->
  (forall i, exists e, q_pieri Unset i lc = Err e) /\ (forall i, exists e, q_qpieri Unset i lc = Err e) /\
  (exists e, q_part2pair Unset lc = Err e) /\
  (forall lam, exists e, q_act Unset lc (pS lam) = Err e) /\ (forall lam, exists e, q_qact Unset lc (pS lam) = Err e).
Proof. exact c74_unset. Qed.
Print Assumptions C74_unset.
(** the index conversions and the type always. *)
Theorem C74_unset_index : forall lc, q_part2index Unset lc = Err ValueError /\ q_index2part Unset lc = Err ValueError /\
  forall lam, q_schub_type Unset lam = Err ValueError.
Proof. exact c74_unset_index. Qed.
Print Assumptions C74_unset_index.

(** giambelli, qgiambelli, mult, toS and qtoS raise NameError in every state. *)
Theorem C74_names_refuted : forall st a b,
  q_giambelli st a = Err NameError /\ q_qgiambelli st a = Err NameError /\ q_mult st a b = Err NameError /\
  q_toS st a = Err NameError /\ q_qtoS st a = Err NameError.
Proof. exact c74_names. Qed.
Print Assumptions C74_names_refuted.

Example C74_case : exists r, has_class (pS [2; 1]) /\ q_pieri Unset 1 (pS [2; 1]) = Err TypeError /\
  q_act Unset (pS [1]) (pS [2; 1]) = Err TypeError /\
  q_act (SetAs (mkGr TA 3 6)) (pS [1]) (pS [2; 1]) = Ok r /\ coef r [vS [3; 1]] = 1%Qc /\
  q_part2index_list (SetAs (mkGr TA 3 6)) [2; 1] = Ok (pS [2; 4; 6]).
Proof.
  eexists. split; [exists [vS [2; 1]], (SP [2; 1]); split; [vm_compute; discriminate|left; reflexivity]|].
  split; [vm_compute; reflexivity|]. split; [vm_compute; reflexivity|]. split; [vm_compute; reflexivity|].
  split; vm_compute; reflexivity.
Qed.

Example C74_pair_case :
  q_part2pair_list (SetAs (mkGr TC 1 3)) [3; 1] = Ok (SPair [2] [2]) /\
  q_pair2part_list (SetAs (mkGr TC 1 3)) [2] [2] = Ok (SP [3; 1]) /\
  (exists r, q_pieri_list (SetAs (mkGr TC 1 3)) 1 [3; 1] = Ok r).
Proof. split; [vm_compute; reflexivity|]. split; [vm_compute; reflexivity|]. eexists. vm_compute. reflexivity. Qed.
