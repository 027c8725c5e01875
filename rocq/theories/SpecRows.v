(** Vocabulary: the special classes that do not fit. *)

From Coq Require Import ZArith List Bool.
From Verif Require Import Py ModelPoly Spec.
Import ListNotations.
Open Scope Z_scope.

(** the classes S[x] with x > c are replaced by 0; everything else stays *)
Definition rows_above (c : Z) (v : var) : poly :=
  match v with
  | VS (SP [x]) => if c <? x then pzero else pvar v
  | _ => pvar v
  end.

(** the shape fits into [rows] rows and [cols] columns *)
Definition fits_box (rows cols : Z) (l : list Z) : bool := (part l 0 <=? cols) && (Z.of_nat (length l) <=? rows).
(** the classes S[l] for which [ok l] fails are replaced by 0, as is everything else of the form S[..]; the rest stays *)
Definition keep (ok : list Z -> bool) (v : var) : poly :=
  match v with
  | VS (SP l) => if ok l then pvar v else pzero
  | VS _ => pzero
  | _ => pvar v
  end.
