(** Vocabulary: replacing classes in polynomials. *)

From Coq Require Import ZArith List QArith Qcanon.
From Verif Require Import Py ModelPoly.
Import ListNotations.
Open Scope Z_scope.

(** the polynomial with [s v] in place of each variable [v] *)
Definition put_mono (s : var -> poly) (m : mono) : poly := fold_right (fun v x => pmul (s v) x) pone m.
Definition put (s : var -> poly) (p : poly) : poly := fold_right (fun t x => padd (pscale (snd t) (put_mono s (fst t))) x) pzero p.

(** the class S[t] is replaced by [h]; everything else stays *)
Definition row_becomes (t : Z) (h : poly) (v : var) : poly :=
  match v with
  | VS (SP [x]) => if x =? t then h else pvar v
  | _ => pvar v
  end.
(** q/2 *)
Definition half_q : poly := pscale (Q2Qc (1 # 2)) (pvar VQ).
