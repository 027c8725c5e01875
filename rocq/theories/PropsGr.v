(** Properties C32-C37: constructors, clone, list arguments, special classes,
    the class of a point and multiplication tables.  The vocabulary is that of
    Spec.v and SpecMisc.v. *)

From Coq Require Import ZArith List Lia Bool QArith Qcanon.
From Verif Require Import Py ModelPart ModelQcalc ModelPoly ModelGr ModelList Spec SpecMisc Check
  PyFacts Conv ApiGr.
Import ListNotations.
Open Scope Z_scope.

(** C32: which arguments the constructors accept, and what get_type_data
    (type, k, n, subspace dimension, space dimension, degree of q) reports. *)
Theorem C32_type_A : forall m n, (exists g, Grassmannian m n = Ok g) <-> 0 <= m <= n.
Proof. exact c32_A. Qed.
Print Assumptions C32_type_A.
Theorem C32_IG : forall m N, (exists g, IsotropicGrassmannian m N = Ok g) <-> 0 <= m /\ Z.even N = true /\ 2 * m <= N.
Proof. exact c32_IG. Qed.
Print Assumptions C32_IG.
(** The orthogonal constructor does not check m <= N/2: *)
Theorem C32_OG_actual : forall m N, (exists g, OrthogonalGrassmannian m N = Ok g) <-> 0 <= m /\ 0 <= N.
Proof. exact c32_OG. Qed.
Print Assumptions C32_OG_actual.
Theorem C32_OG_refuted : exists m N g, OrthogonalGrassmannian m N = Ok g /\ ~ m <= N / 2.
Proof. exact c32_OG_refuted. Qed.
Print Assumptions C32_OG_refuted.
Theorem C32_reports_A : forall m n g, Grassmannian m n = Ok g ->
  exists k nn, get_type_data g = (TA, k, nn, m, n, n) /\ k = n - m.
Proof. exact data_A. Qed.
Print Assumptions C32_reports_A.
Theorem C32_reports_IG : forall m N g, IsotropicGrassmannian m N = Ok g ->
  exists k nn, get_type_data g = (TC, k, nn, m, N, N + 1 - m) /\ k = N / 2 - m.
Proof. exact data_IG. Qed.
Print Assumptions C32_reports_IG.
Theorem C32_reports_OG : forall m N g, OrthogonalGrassmannian m N = Ok g ->
  exists t k nn d, get_type_data g = (t, k, nn, m, N, d) /\ k = N / 2 - m /\ t = (if Z.even N then TD else TB).
Proof. exact data_OG. Qed.
Print Assumptions C32_reports_OG.
Example C32_case : (exists g, Grassmannian 2 5 = Ok g) /\ (exists g, IsotropicGrassmannian 2 6 = Ok g) /\
  (exists g, OrthogonalGrassmannian 2 7 = Ok g) /\ ~ (exists g, IsotropicGrassmannian 2 7 = Ok g).
Proof. rewrite C32_type_A, !C32_IG, C32_OG_actual. repeat split; try lia. intros (_ & H & _). discriminate. Qed.

(** C33: clone() copies ordinary Grassmannians, and never the others. *)
Theorem C33_type_A : forall m n g, Grassmannian m n = Ok g -> clone g = Ok g.
Proof. exact clone_A. Qed.
Print Assumptions C33_type_A.
Theorem C33_IG_refuted : forall m N g, IsotropicGrassmannian m N = Ok g -> 1 <= N -> clone g <> Ok g.
Proof. exact clone_IG. Qed.
Print Assumptions C33_IG_refuted.
Theorem C33_OG_refuted : forall m N g, OrthogonalGrassmannian m N = Ok g -> clone g <> Ok g.
Proof. exact clone_OG. Qed.
Print Assumptions C33_OG_refuted.
Example C33_case : exists g h, IsotropicGrassmannian 2 6 = Ok g /\ Grassmannian 2 6 = Ok h /\
  clone g <> Ok g /\ clone h = Ok h.
Proof. do 2 eexists. repeat split; vm_compute; discriminate. Qed.

(** C34: calls with a list in place of a class.  Products, conversions into
    the Schubert basis, qpieri and miami_swap take lists; *)
Theorem C34_products : forall g a b, is_partition a -> is_partition b ->
  mult_list g a b = mult g (pS a) (pS b) /\ qmult_list g a b = qmult g (pS a) (pS b) /\
  toS_list g a = toS g (pS a) /\ qtoS_list g a = qtoS g (pS a) /\
  (forall i, qpieri_list g i a = qpieri g i (pS a)) /\ miami_swap_list g a = miami_swap g (pS a).
Proof. exact lists_products. Qed.
Print Assumptions C34_products.
Theorem C34_pieri : forall g i l,
  (forall r, pieri_list g i l = Ok r -> exists r', pieri g i (pS l) = Ok r' /\ peq r' r) /\
  (forall e, pieri_list g i l = Err e <-> pieri g i (pS l) = Err e).
Proof. intros g i l. split; [exact (pieri_list_ok g i l) | exact (pieri_list_iff g i l)]. Qed.
Print Assumptions C34_pieri.
Theorem C34_index2part : forall g l, (forall x, In x l -> 0 <= x) -> index2part_list g l = index2part g (pS l).
Proof. exact index2part_list_in. Qed.
Print Assumptions C34_index2part.
Theorem C34_part2pair_IG : forall m N g lam, IsotropicGrassmannian m N = Ok g -> class_IG m N lam ->
  exists s x, part2pair_list g lam = Ok s /\ part2pair g (pS lam) = Ok x /\ peq x (pvar (VS s)) /\
    (forall t b, s = SPair t b -> pair2part_list g t b = Ok (SP lam)).
Proof. exact part2pair_list_IG. Qed.
Print Assumptions C34_part2pair_IG.
(** but part2index, type_swap, and on orthogonal Grassmannians part2pair and
    pair2part raise for every list. *)
Theorem C34_part2index_refuted : forall g l, exists e, part2index_list g l = Err e.
Proof. exact part2index_list_err. Qed.
Print Assumptions C34_part2index_refuted.
Theorem C34_type_swap_refuted : forall g l, exists e, type_swap_list g l = Err e.
Proof. exact type_swap_list_err. Qed.
Print Assumptions C34_type_swap_refuted.
Theorem C34_pairs_OG_refuted : forall g l t b, g_type g = TB \/ g_type g = TD ->
  (exists e, part2pair_list g l = Err e) /\ (exists e, pair2part_list g t b = Err e).
Proof. exact pairs_list_err. Qed.
Print Assumptions C34_pairs_OG_refuted.
Example C34_case : exists g a b c, IsotropicGrassmannian 2 6 = Ok g /\
  mult_list g [2] [1] = Ok a /\ part2pair_list g [4; 1] = Ok b /\ index2part_list g [2; 5] = Ok c /\
  c = pS [3] /\ part2index g (pS [2]) <> Err ValueError /\ part2index_list g [2] = Err ValueError.
Proof.
  do 4 eexists. do 4 (split; [vm_compute; reflexivity|]).
  split; [vm_compute; reflexivity|]. split; [vm_compute; discriminate|vm_compute; reflexivity].
Qed.

(** C35: the index of a special class.  num2spec names the p-th special class
    (negative p: the second class of degree -p, type D only). *)
Theorem C35_roundtrip : forall t p, 0 < p \/ (p < 0 /\ t = TD) -> spec2num t (vS (num2spec p)) = Ok p.
Proof. exact spec_round. Qed.
Print Assumptions C35_roundtrip.
Theorem C35_exact_ABC : forall t l p, t <> TD -> is_partition l ->
  (spec2num t (vS l) = Ok p <-> 0 < p /\ l = [p]).
Proof. exact spec_part. Qed.
Print Assumptions C35_exact_ABC.
Theorem C35_exact_D : forall k rows cols l p, typed_in k rows cols l ->
  (spec2num TD (vS l) = Ok p <-> 0 < p /\ l = [p] \/ p < 0 /\ l = [- p; 0]).
Proof. exact spec_typed_cases. Qed.
Print Assumptions C35_exact_D.
Example C35_case : spec2num TD (vS [2; 0]) = Ok (-2) /\ typed_in 2 2 5 [2; 0] /\ num2spec (-2) = [2; 0] /\
  spec2num TC (vS [2; 1]) = Err ValueError /\ spec2num TC (vS []) = Err IndexError.
Proof.
  split; [reflexivity|]. 
  split; [right; exists [2]; split; [auto|]; split; [lia|]; split; [left; auto|]; split; [apply in_boxb_ok; reflexivity|];
    intros [|[|j]]; unfold part; simpl; lia|]. repeat split; reflexivity.
Qed.

(** C36: generators are the classes with one nonzero part; point_class is the
    unique class of largest degree. *)
Theorem C36_generators_A : forall m n g l, Grassmannian m n = Ok g -> 1 <= m ->
  (In l (generators g) <-> in_box m (n - m) l /\ exists i, 1 <= i /\ l = [i]).
Proof. exact gens_A. Qed.
Print Assumptions C36_generators_A.
Theorem C36_generators_IG : forall m N g l, IsotropicGrassmannian m N = Ok g -> 1 <= m ->
  (In l (generators g) <-> class_IG m N l /\ exists i, 1 <= i /\ l = [i]).
Proof. exact gens_IG. Qed.
Print Assumptions C36_generators_IG.
Theorem C36_generators_OG : forall m N g l, OrthogonalGrassmannian m N = Ok g -> 1 <= m <= N / 2 ->
  (In l (generators g) <-> class_OG m N l /\ exists i, 1 <= i /\ (l = [i] \/ l = [i; 0])).
Proof. exact gens_OG. Qed.
Print Assumptions C36_generators_OG.
(** On OG(0,N), N even, where [] is the only class, generators() lists others. *)
Theorem C36_generators_OG0_refuted : exists N g l,
  OrthogonalGrassmannian 0 N = Ok g /\ 1 <= N /\ In l (generators g) /\ ~ class_OG 0 N l.
Proof. exact gens_OG_m0. Qed.
Print Assumptions C36_generators_OG0_refuted.
Theorem C36_point_A : forall m n g, Grassmannian m n = Ok g -> is_point (in_box m (n - m)) (point_class g).
Proof. exact point_A. Qed.
Print Assumptions C36_point_A.
Theorem C36_point_IG : forall m N g, IsotropicGrassmannian m N = Ok g -> is_point (class_IG m N) (point_class g).
Proof. exact point_IG. Qed.
Print Assumptions C36_point_IG.
Theorem C36_point_OG : forall m N g, OrthogonalGrassmannian m N = Ok g -> m <= N / 2 -> 1 <= N ->
  is_point (class_OG m N) (point_class g).
Proof. exact point_OG. Qed.
Print Assumptions C36_point_OG.
Example C36_case : exists g h, OrthogonalGrassmannian 2 8 = Ok g /\ point_class g = [5; 4] /\
  In [2; 0] (generators g) /\ IsotropicGrassmannian 2 6 = Ok h /\ point_class h = [4; 3] /\
  generators h = [[1]; [2]; [3]; [4]].
Proof. do 2 eexists. repeat split; vm_compute; auto. Qed.

(** C37: tables. *)
Theorem C37_entries : forall prod g T, mult_table_with prod g = Ok T ->
  exists L, schub_classes g = Ok L /\ is_table prod L T.
Proof. exact table_entries. Qed.
Print Assumptions C37_entries.
Theorem C37_type_A : forall m n g, Grassmannian m n = Ok g -> 1 <= m ->
  exists L T T', schub_classes g = Ok L /\ MultTable g = Ok T /\ QMultTable g = Ok T' /\
    is_table (mult g) L T /\ is_table (qmult g) L T' /\ symmetric_table T /\ symmetric_table T'.
Proof. exact tables_A. Qed.
Print Assumptions C37_type_A.
Example C37_case : exists g T r x, Grassmannian 1 3 = Ok g /\ QMultTable g = Ok T /\ nth_error T 1 = Some r /\
  nth_error r 2 = Some x /\ x = [([VS (SP []); VQ], 1%Qc)].
Proof. do 4 eexists. do 4 (split; [vm_compute; reflexivity|]). vm_compute; reflexivity. Qed.
