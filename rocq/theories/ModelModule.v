(** The functions of the module qcalc.py that read its module variables
    (qcalc.py:591-788). *)

From Coq Require Import ZArith List Bool.
From Verif Require Import Py ModelPart ModelQcalc ModelPoly ModelStr ModelGr.
Import ListNotations.
Open Scope Z_scope.

(** qcalc.py:650-654: the module variables [_type], [_k], [_n], [_pieri],
    [_qpieri].  [Unset] are the initial values (None, None, None, fail_no_type,
    fail_no_type), which nothing in the package changes; [SetAs g]: a user has
    assigned the attributes of the same names of the Grassmannian [g].  (Other
    assignments are not modelled.) *)
Inductive mstate : Type := Unset | SetAs (g : gr).

(** qcalc.py:591-598 [spec2num]: [_type != "D"] also holds for None; a symbol
    that is not a Schur symbol makes toSchur raise ValueError *)
Definition ms_is_D (st : mstate) : bool :=
  match st with SetAs g => match g_type g with TD => true | _ => false end | Unset => false end.
(** qcalc.py:591-598 [spec2num] *)
Definition q_spec2num (st : mstate) (v : var) : res Z :=
  match v with
  | VS (SP []) => Err IndexError
  | VS (SP [a]) => Ok a
  | VS (SP (a :: b :: _)) => if negb (ms_is_D st) || negb (b =? 0) then Err ValueError else Ok (- a)
  | VS (SPair _ _) => Err ValueError
  | _ => Err ValueError
  end.

(** a call _pieri(i, p, _k, _n); [fail_no_type] (646-647) takes no arguments, so
    that the call raises TypeError *)
(** [_pieri], qcalc.py:653, 646-647 *)
Definition ms_pieri (st : mstate) (i : Z) (lam : list Z) : res poly :=
  match st with Unset => Err TypeError | SetAs g => pieri_fun g i lam end.
(** [_qpieri], qcalc.py:654, 646-647 *)
Definition ms_qpieri (st : mstate) (i : Z) (lam : list Z) : res poly :=
  match st with Unset => Err TypeError | SetAs g => qpieri_fun g i lam end.

(** qcalc.py:660-667 [part2pair]: [min(lam_i, None)], and for the empty list
    [None - len(top)] (line 141), raise TypeError *)
Definition q_part2pair (st : mstate) (lc : poly) : res poly :=
  match st with
  | Unset => apply_lc (fun _ => Err TypeError) lc
  | SetAs g => match g_type g with
               | TA => Err PlainException
               | _ => apply_lc (on_part (fun lam =>
                        let '(t, b) := part2pair_inner lam (g_k g) in ret_schur (SPair t b))) lc
               end
  end.
(** qcalc.py:660-667 [part2pair] with a list *)
Definition q_part2pair_list (st : mstate) (lam : list Z) : res schur :=
  match st with
  | Unset => Err TypeError
  | SetAs g => match g_type g with
               | TA => Err PlainException
               | _ => let '(t, b) := part2pair_inner lam (g_k g) in Ok (SPair t b)
               end
  end.

(** qcalc.py:670-677 [pair2part] *)
Definition ms_is_A (st : mstate) : bool :=
  match st with SetAs g => match g_type g with TA => true | _ => false end | Unset => false end.
(** qcalc.py:670-677 [pair2part] *)
Definition q_pair2part (st : mstate) (lc : poly) : res poly :=
  if ms_is_A st then Err PlainException
  else apply_lc (fun s => match s with
         | SPair t b => a <- pair2part_inner t b ;; ret_schur (SP a)
         | SP [_; _] => Err TypeError
         | SP _ => Err ValueError
         end) lc.
(** qcalc.py:670-677 [pair2part] with a list *)
Definition q_pair2part_list (st : mstate) (t b : list Z) : res schur :=
  if ms_is_A st then Err PlainException else a <- pair2part_inner t b ;; Ok (SP a).

(** qcalc.py:680-694 [part2index], 697-711 [index2part]; a list argument is
    turned into a Schur object first *)
Definition q_part2index (st : mstate) (lc : poly) : res poly :=
  match st with
  | Unset => Err ValueError
  | SetAs g =>
      let f := match g_type g with
               | TA => part2indexA_inner | TB => part2indexB_inner
               | TC => part2indexC_inner | TD => part2indexD_inner end in
      apply_lc (on_part (fun lam => a <- f lam (g_k g) (g_n g) ;; ret_schur (SP a))) lc
  end.
(** qcalc.py:680-694 [part2index] with a list *)
Definition q_part2index_list (st : mstate) (l : list Z) : res poly :=
  match st with
  | Unset => Err ValueError
  | SetAs g => s <- symbol (SP l) ;; q_part2index st s
  end.
(** qcalc.py:697-711 [index2part] *)
Definition q_index2part (st : mstate) (lc : poly) : res poly :=
  match st with
  | Unset => Err ValueError
  | SetAs g =>
      let f := match g_type g with
               | TA => index2partA_inner | TB => index2partB_inner
               | TC => index2partC_inner | TD => index2partD_inner end in
      apply_lc (on_part (fun idx => a <- f idx (g_k g) (g_n g) ;; ret_schur (SP a))) lc
  end.
(** qcalc.py:697-711 [index2part] with a list *)
Definition q_index2part_list (st : mstate) (l : list Z) : res poly :=
  match st with
  | Unset => Err ValueError
  | SetAs g => s <- symbol (SP l) ;; q_index2part st s
  end.

(** qcalc.py:717-729 [schub_type] for a list *)
Definition q_schub_type (st : mstate) (lam : list Z) : res Z :=
  match st with
  | Unset => Err ValueError
  | SetAs g => match g_type g with
               | TD => if negb (zmem (g_k g) lam) then Ok 0
                       else match lam with [] => Ok 1 | _ => if 0 <? last lam 1 then Ok 1 else Ok 2 end
               | _ => Err ValueError
               end
  end.

(** qcalc.py:732-736 [pieri], 761-766 [qpieri]: both apply the function to every
    class symbol *)
Definition q_pieri (st : mstate) (i : Z) (lc : poly) : res poly := apply_lc (on_part (ms_pieri st i)) lc.
(** qcalc.py:732-736 [pieri] with a list *)
Definition q_pieri_list (st : mstate) (i : Z) (lam : list Z) : res poly := ms_pieri st i lam.
(** qcalc.py:761-766 [qpieri] *)
Definition q_qpieri (st : mstate) (i : Z) (lc : poly) : res poly := apply_lc (on_part (ms_qpieri st i)) lc.

(** qcalc.py:605-637 [act_lc] *)
Fixpoint q_act_lc (fuel : nat) (st : mstate) (pi : Z -> list Z -> res poly) (expc lc : poly) : res poly :=
  match fuel with
  | O => Err RecursionError
  | S f =>
      match first_var expc with
      | None => Ok (pmul expc lc)
      | Some v =>
          i <- q_spec2num st v ;;
          lc_p1 <- q_act_lc f st pi (div_var v expc) lc ;;
          lc_p2 <- q_act_lc f st pi (subs0 v expc) lc ;;
          res1 <- apply_lc (on_part (pi i)) lc_p1 ;;
          Ok (padd res1 lc_p2)
      end
  end.
(** qcalc.py:739-742 [act], 769-775 [qact] *)
Definition q_act (st : mstate) (e lc : poly) : res poly := q_act_lc (act_fuel e) st (ms_pieri st) e lc.
(** qcalc.py:769-775 [qact] *)
Definition q_qact (st : mstate) (e lc : poly) : res poly := q_act_lc (act_fuel e) st (ms_qpieri st) e lc.

(** qcalc.py:745-747 [giambelli], 778-782 [qgiambelli]: the name [giambelli_rec]
    is not defined in the module; 750-753 [mult], 756-758 [toS], 785-788 [qtoS]
    call them first *)
Definition q_giambelli (st : mstate) (lc : poly) : res poly := Err NameError.
(** qcalc.py:778-782 [qgiambelli] *)
Definition q_qgiambelli (st : mstate) (lc : poly) : res poly := Err NameError.
(** qcalc.py:750-753 [mult] *)
Definition q_mult (st : mstate) (a b : poly) : res poly := x <- q_giambelli st a ;; q_act st x b.
(** qcalc.py:756-758 [toS] *)
Definition q_toS (st : mstate) (a : poly) : res poly := x <- q_giambelli st a ;; q_act st x (pvar (VS (SP []))).
(** qcalc.py:785-788 [qtoS] *)
Definition q_qtoS (st : mstate) (a : poly) : res poly := x <- q_qgiambelli st a ;; q_qact st x (pvar (VS (SP []))).
