(** C91: the powers of q in a quantum product of two classes of Gr(m,n). *)

From Coq Require Import ZArith List Lia Bool QArith Qcanon.
From Verif Require Import Py ModelPart ModelQcalc ModelPoly ModelGr Spec SpecMaxQ Check ApiMaxQ.
Import ListNotations.
Open Scope Z_scope.

(** q^d occurs exactly if the two shapes, moved by d rows and d columns, fit
    together on the torus. *)
Theorem C91_powers_A : forall m n g, Grassmannian m n = Ok g -> 1 <= m -> forall lam mu,
  in_box m (n - m) lam -> in_box m (n - m) mu ->
  exists r, qmult g (pS lam) (pS mu) = Ok r /\ forall d, has_power r d <-> q_overlap m (n - m) lam mu d.
Proof. exact c91. Qed.
Print Assumptions C91_powers_A.

(** The powers of q that occur are consecutive. *)
Theorem C91_interval_A : forall m n g, Grassmannian m n = Ok g -> 1 <= m -> forall lam mu,
  in_box m (n - m) lam -> in_box m (n - m) mu ->
  exists r, qmult g (pS lam) (pS mu) = Ok r /\
    forall a b c, (a <= b <= c)%nat -> has_power r a -> has_power r c -> has_power r b.
Proof. exact c91_interval. Qed.
Print Assumptions C91_interval_A.

(** q^d occurs only if both shapes contain a square with d rows. *)
Theorem C91_square_A : forall m n g, Grassmannian m n = Ok g -> 1 <= m -> forall lam mu r d,
  in_box m (n - m) lam -> in_box m (n - m) mu -> qmult g (pS lam) (pS mu) = Ok r -> has_power r (S d) ->
  Z.of_nat (S d) <= part lam d /\ Z.of_nat (S d) <= part mu d.
Proof. exact c91_square. Qed.
Print Assumptions C91_square_A.

(** S[3,2,1]^2 on Gr(3,6) has terms with q and q^2 only *)
Example C91_case : Grassmannian 3 6 = Ok (mkGr TA 3 6) /\ in_box 3 3 [3; 2; 1] /\
  (exists r, qmult (mkGr TA 3 6) (pS [3; 2; 1]) (pS [3; 2; 1]) = Ok r /\
    coef r (qS 1 [3; 2; 1]) <> 0%Qc /\ coef r (qS 2 []) <> 0%Qc) /\
  q_overlap 3 3 [3; 2; 1] [3; 2; 1] 1 /\ q_overlap 3 3 [3; 2; 1] [3; 2; 1] 2 /\
  ~ q_overlap 3 3 [3; 2; 1] [3; 2; 1] 0 /\ ~ q_overlap 3 3 [3; 2; 1] [3; 2; 1] 3.
Proof.
  split; [vm_compute; reflexivity|]. split; [apply in_boxb_ok; vm_compute; reflexivity|]. split; [|split; [|split; [|split]]].
  - eexists. split; [vm_compute; reflexivity|]. split; vm_compute; discriminate.
  - split; [lia|]. intros j Hj. assert (Hc : (j = 0 \/ j = 1 \/ j = 2)%nat) by lia. destruct Hc as [->|[->| ->]]; vm_compute; split; intros; try split; try discriminate; lia.
  - split; [lia|]. intros j Hj. assert (Hc : (j = 0 \/ j = 1 \/ j = 2)%nat) by lia. destruct Hc as [->|[->| ->]]; vm_compute; split; intros; try split; try discriminate; lia.
  - intros (_ & HO). destruct (HO 0%nat ltac:(lia)) as (_ & A). destruct (A ltac:(lia)) as (_ & B). vm_compute in B. auto.
  - intros (_ & HO). destruct (HO 0%nat ltac:(lia)) as (A & _). specialize (A ltac:(lia)). vm_compute in A. auto.
Qed.
