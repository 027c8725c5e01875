# Formal model of schubertpy: design

All Coq files are in `rocq/theories` (logical name `Verif`), Coq 8.16.1, standard library only.

## Layers

| layer | files | content |
|---|---|---|
| Python primitives | `Py.v` | integers as `Z`, lists as `list Z`, indexing with negative wrap-around and `IndexError`, slices, exceptions as values (`res A := Ok a \| Err e`), loops with explicit fuel whose exhaustion is the error value `OutOfFuel` (`RecursionError` for recursive functions) |
| partitions, iterators, index arithmetic | `ModelPart.v`, `ModelQcalc.v` | `partition.py`, `utils/kstrict.py`, `qcalc.py` 57-584: conjugation, pairs, index sets, type swaps, `_pieri_fill*`, `_pieri_itr*`, `pieri_set`, `count_comps`, `_part_star`, `_part_tilde` |
| sympy expressions | `ModelPoly.v` | polynomials over `Qc` in the symbols `S[..]`, `q`, `q1`, `q2`; `LinearCombination.apply` |
| expression trees | `ModelExpr.v` | unexpanded `Add`/`Mul`/`Pow` trees: `apply` by recursion, `is_valid`, `has_part_zero_padding`, `schur_expansion` |
| symbols | `ModelStr.v`, `ModelParse.v` | `Schur.__str__`, `symbol`, the translation tables, `toSchur`, `isSchur` |
| Grassmannian classes | `ModelGr.v`, `ModelList.v` | constructors, the four Pieri rules, the four quantum Pieri rules, `act_lc`, `giambelli_rec`, `mult`, `qmult`, `toS`, `qtoS`, `qmult_rh`, conversions, `dualize`, `type_swap`, `miami_swap`, `schub_classes`, `generators`, `point_class`, `degree_q`, `clone`, tables; calls with list arguments |
| caches | `ModelCache.v` | `hashable_lru_cache`, `hashable_lru_cache_method` as memo tables threaded through computations |
| module functions | `ModelModule.v` | `qcalc.py` 591-788: the functions that read the module variables, as functions of their values |
| operators, texts, drawings | `ModelArith.v`, `ModelText.v`, `ModelDraw.v` | `+`, `-`, `*`, `**` of `Schur` and `LinearCombination`; printing and reading expressions; the rectangles of `draw`, `yd` |
| other | `ModelSage.v` | `sage_schur_to_schur` |
| other | `ModelMisc.v` | ASCII pictures, `csv_bijection.py`, `SchurPol`, `to_polinomial_str` |
| specification | `Spec*.v` | the mathematical notions used in theorem statements, independent of the functions of the model |
| proofs | all other files | see the table below |
| properties | `Props*.v` | one theorem per claim, closed by `exact`, `Print Assumptions` below it, a concrete case beside it |

Proof files, bottom up:

| files | content |
|---|---|
| `PyFacts`, `OrderFacts`, `PolyFacts`, `SuppFacts`, `WSum` | lists, orders, the ring of polynomials, supports, sums over shapes |
| `Enum`, `FillFacts`, `BetwFacts`, `PartFacts`, `Schub` | "predecessor iteration enumerates a finite set": every iterator of the library is an instance |
| `PieriA`, `QPieriA`, `CylA`, `RingA`, `FactsA`, `ApiA` | type A: exact (quantum) Pieri rule, commutation by a toggle on cylindric shapes, ring laws, duality |
| `OpTheory`, `Sys`, `Sys2`, `SysApi`, `SysRing`, `RingData` | the algebra behind `act_lc`, `giambelli_rec` and the products for any commuting family of Pieri operators (record `pieri_sys`) |
| `ConjFacts`, `PairFacts`, `IndexC/B/D`, `DualFacts`, `Conv*`, `ApiIndex`, `ApiPair`, `GrInv`, `ApiConvA` | conversions |
| `PieriSet`, `PieriBKT`, `CompsFacts`, `CompsBound`, `PieriCoef`, `PieriD`, `QPieriD`, `QPieriD1`, `SetFacts`, `TwoBad`, `ApiPieri*` | `pieri_set` is the Buch-Kresch-Tamvakis relation; `count_comps` counts components; exact (quantum) Pieri rules of types B, C, D |
| `Word*`, `WArrow`, `Transfer`, `TransD`, `Extract`, `Coef*`, `CommC/B/D/D2`, `RecBCD`, `RingC/B/D/D0`, `ApiRing*` | types B, C, D: classes as words, Pieri operators as transfer matrices of an automaton, commutation by a Yang-Baxter argument, ring laws |
| `DualSys`, `DualA`, `DualWord`, `DualWordD`, `ApiDual` | Pieri operators are self-adjoint for the duality pairing; hence duality and symmetric constants |
| `LRCore`, `LRSum`, `LRMult`, `LRTab`, `ApiLR` | sums over column chains of tableaux are alternating; sign-reversing cancellation; induction along Giambelli; tableaux as lists of columns |
| `LRQuant`, `RimQ`, `ApiRim` | functions periodic up to sign; the quantum product at q = 1; reduction by rim hooks; `qmult_rh` |
| `SysMap`, `VertA`, `ConjRing`, `ApiVert` | homomorphisms between the rings of two Grassmannians; products with columns; conjugation |
| `ActLaws`, `PosFacts`, `GiamSame`, `TwoComm`, `TwoRing` | act and qact as a module, which keeps coefficients positive; giambelli = qgiambelli on Gr and OG; OG(N/2-1,N), N <= 16: commuting operators and products over Q[q,q1,q2] |
| `RelAct`, `TwoDual`, `TwoPair`, `ApiTwo`, `ApiTwoZ` | the pairing of OG(N/2-1,N), N <= 16: self-adjoint operators, duality, products that never vanish |
| `IterFacts` | one step of the enumerations of partitions, skew heights |
| `MinQ`, `ApiMinQ` | chains of Pieri products with the number of their factors q; the smallest power of q |
| `QOcc`, `LoopQ`, `ApiMaxQ` | chains with at most m quantum Pieri products and the powers of q that occur in a product on Gr(m,n) |
| `SpecLines`, `Lines` | closed formula for all products on Gr(2,n) |
| `SpecCyl`, `QKostka` | quantum products of special classes of Gr(m,n) count cylindric tableaux |
| `SpecOutside`, `Outside` | symbols that are not classes of the space: the recursion of giambelli never returns |
| `SpecDegree`, `PartialFrac`, `DegreeAlg`, `Degree`, `DegreeLow`, `DegreeA`, `DegreeMax` | powers of the class S[1]: recurrence, partial fractions, the formulas of Frobenius and Schur |
| `SpecSeidel`, `SeidelSys`, `SeidelC`, `SeidelB`, `SeidelApi`, `SeidelD`, `SeidelDApi`, `SeidelP` | symmetries of the quantum Pieri rule in types C, B and D, as products with one class |
| `SpecDepth`, `Depth` | nesting of the Giambelli recursion |
| `SpecPres`, `PresIdeal`, `PresIdeal2` | ideals, the determinants modulo the relations, the presentation of the ring of Gr(m,n) |
| `SpecPresMax`, `PresMax`, `PresMax2` | the presentations of the rings of IG(n,2n), OG(n,2n+1) and OG(n+1,2n+2) |
| `LGQuant` | products of IG(n+1,2n+2) from quantum products of IG(n,2n) |
| `IGQuant` | the same for IG(m,N) and IG(m+1,N+2), for classes with at most m+1 rows together |
| `Restrict`, `StabC`, `StabD`, `StabA` | the product of a space restricted to the classes of a smaller one, for two Pieri systems; Gr(m,n) in Gr(m+i,n+i+j), IG(m,N) in IG(m+j,N+2j) and OG(m,N) in OG(m+j,N+2j) |
| `SpecRows`, `GiamStab`, `StabGiam` | putting special classes to 0; the Giambelli polynomials of a space from those of a larger one |
| `RestrictPoly`, `StabHom` | putting classes to 0 is compatible with mult and toS on polynomials in the classes |
| `SpecPush`, `Push` | products with the classes pushed forward from a smaller space |
| `SpecPfaff`, `PfaffWords`, `PfaffWords2`, `Pfaff`, `Pfaff2`, `Pfaff3`, `PfaffFull` | alternating sums over the Pieri kernel of strict partitions, Pfaffian expansions and the Pfaffian formula |
| `StrangePair`, `Strange`, `StrangeA`, `ApiStrange` | the pairing in which q is unitary, adjoints of products, strange duality on Gr(m,n) |
| `QGiamC`, `ApiQG` | the recursion of qgiambelli on IG(m,N) and of giambelli on IG(m+1,N+2) side by side |
| `GiamDet`, `PresA`, `Kostka`, `TopClass`, `Seidel`, `MultFree` | determinants, relations of the presentation of QH(Gr(m,n)), chains of horizontal strips, the class of the largest special degree, rotations |
| `Reach`, `ReachQ`, `ReachMax` | supports of products, chains of Pieri terms |
| `TwoRows*`, `GiamTwo*`, `Rel*` | types B, C, D: Pieri rule of a single row, Giambelli polynomials of two rows, quadratic relations |
| `ProjFacts`, `QuadFacts`, `ApiProj`, `ApiQuad` | projective spaces and quadrics |
| `ModelThreads`, `ThreadFacts` | threads that share the memo tables |
| `RimFacts`, `TabFacts`, `ExprFacts`, `ParseFacts`, `CacheFacts`, `Api*` | the remaining properties |

## Modelling decisions

* A sympy expression is identified with the polynomial it expands to (`coef : poly -> mono -> Qc`), so `expand`, `str` and `parse_expr` are the identity on the model.  Symbol names are modelled separately (`ModelStr.v`, `ModelParse.v`), and trees that are not expanded in `ModelExpr.v`.
* Python's recursion limit, float rounding, memory and time are not modelled.  Unbounded recursion is `Err RecursionError` when the fuel runs out; each theorem shows that this does not happen on its domain.
* Loops are modelled with fuel; the theorems state the result is `Ok`, hence the loop ended.
* Memo tables are modelled in their own file and shown transparent, so the other files use the uncached functions.
* Sets of small integers are iterated in the order of CPython's hash table (`orthogonal_grassmannian.py` 298-300 depends on it, see C42).
* Printed output is the list of its lines, a figure the list of its rectangles; csv and pandas I/O are not modelled beyond the pure functions behind them.
* When Python evaluates `a + b`, `left_method` and `right_method` give the methods it tries; numbers and sympy expressions answer `NotImplemented` to the objects of this package.

## Plan per property

| id | model | proof |
|---|---|---|
| C01 | `pieriA_inner`, `_pieri_fillA`, `_pieri_itrA` | iterator = predecessor in lex order on horizontal strips; loop enumerates |
| C02 | `qpieriA_inner`, `_part_star` | reduce to C01 with shifted shapes |
| C03 | same | toggle bijection on periodic sequences |
| C04 | `giambelli_rec_inner`, `act_lc` | well-founded measure (size, first part); Pieri recursion |
| C05-C08 | `mult`, `qmult`, `toS`, `qtoS` | abstract theory of commuting operators with a cyclic vector |
| C09 | same | q-free part is a homomorphism |
| C10 | same | grading invariant |
| C11 | same + `dualize` | Pieri operators are self-adjoint for the complement pairing |
| C12 | `part_gen`, `part_itr` | iterator enumeration, counting; the m=0 case is a refutation |
| C13 | `all_kstrict` | iterator enumeration |
| C14 | `part_conj` | induction on columns |
| C15, C16 | index conversions | arithmetic on strictly monotone sequences, pair counts |
| C17 | `dualize_index_inner` | from C15, C16 |
| C18, C19 | pair conversion, swaps | from C14, list reasoning |
| C20 | string encode/decode | induction on the printed form |
| C21 | memo table; an unhashable key is a TypeError | every key of the wrapped functions is hashable after the conversion; invariant over call histories |
| C22 | `apply` on expression trees | induction on the tree, universal property |
| C23, C24 | `pieri_set` | loop invariants; then the box-by-box description of the relation |
| C25, C26, C44 | B, C, D (quantum) Pieri rules | from C24 and component counts |
| C27 | ring laws of IG and OG | Pieri operators are transfer matrices; two of them commute because their local weights satisfy a Yang-Baxter equation; then `pieri_sys`.  The quantum ring of OG(N/2-1,N), N even, is the exception: refutation |
| C28 | `remove_rim_hooks` | loop invariant on the edge sequence |
| C29, C51 | `qmult`, `qmult_rh` on Gr(m,n) | at q = 1 an alternating functional that is periodic up to sign turns the quantum product into the classical product in a larger Grassmannian; its value on a partition is determined by the reduction by rim hooks.  `qmult_rh` uses the height of the whole skew shape: equal for one hook, refutation for two |
| C52, C53, C54 | `mult`, `qmult` on Gr(m,n) and Gr(n-m,n) | the tableau sum of C51 for a single column gives the vertical rule; conjugation turns horizontal Pieri operators into products with columns, and a map of classes that does this respects all products (`SysMap`); C54 are the extreme cases of C02 and C52 |
| C30 | `SchurPol` | induction, branching rule |
| C31-C34 | small functions | computation, refutations where the code violates the property |
| C35-C41 | small functions | induction; C37 also needs the commutativity of C27 |
| C42 | `qpieriD_inner` | from C44; for k = 1 and N > 16 the class [n+1,...,10,8,7,...,3,1,1] and the iteration order of {1,8} (SetFacts.v, TwoBad.v) |
| C43, C45 | products | Giambelli of a special class is itself |
| C46, C47 | products of IG and OG | grading invariant; the q-free part is a homomorphism |
| C48, C49 | products, `dualize` | self-adjointness of the transfer matrices under reversal of words; then of all products, by induction along Giambelli |
| C50 | `mult` on Gr(m,n) | alternating functionals on Z^m: Pieri is a sum over compositions; tableau sums satisfy the recursion of Giambelli; terms that leave the chamber cancel; bijection between chains of columns and tableaux |
| C55 | operators of `Schur` and `LinearCombination` (`ModelArith.v`) | Python's dispatch between left and reflected methods, by cases; sympy's `bool` of an expression is a parameter |
| C56 | `__eq__`, `__lt__`, `__hash__`, `unique_schur_list` | lexicographic order; a sorted list without repetitions is determined by its elements; hash function and iteration order are parameters |
| C57 | LaTeX, matplotlib and printed drawings (`ModelDraw.v`) | loop invariants, injectivity of the printed coordinates |
| C58 | `type_swap`, `mult`, `qmult`, `pieri`, `qpieri` on OG(m,N), N even | the transfer-matrix kernel of the Pieri operators changes sign with the last letter of a word in its antisymmetric part only; then `SysMap` |
| C59 | `mult`, `qmult` on OG(n,2n+1) and OG(n+1,2n+2) | for k = 0 the type D Pieri operators are those of type B; then `SysMap` |
| C60 | `mult` on IG(m,2n) and OG(m,2n+1) | both Pieri operators count walks of the same automaton, with different weights at the end; the weights differ by the number of letters R; then `SysMap` for scaled classes |
| C61 | number of entries of `schub_classes` on IG and OG | C13 gives the list without repetition; the classes are in bijection with words with letters L, R, K (encW/encD), which are counted by choosing the positions |
| C62 | `giambelli`, `qgiambelli` on Gr(m,n) | the determinant satisfies the Pieri rule: it alternates in the rows, so the sum over strips is the sum over compositions, which is computed by moving columns; the recursion of giambelli has one solution |
| C63 | `toS`, `qtoS` on Gr(m,n) | expand the determinant of a column along its last column, apply the Pieri rule to columns (hooks) and telescope |
| C64 | `lc_str`, `lc_read` (ModelText.v): the text transformations around sympy's printer and parser | strings are walked once; replacing `**` by `^` and back is the identity on texts without `^`; the translation tables are inverse on texts without brackets |
| C65 | `lc_len`, `is_operator`, `list_schur_oprands` on expression trees | induction on the size of the tree; C39 for `schur_expansion` |
| C66 | `gr_str` | decimal numerals are injective and contain no separator |
| C67 | `toS`, `qtoS` on the expressions of SpecRel.v, SpecTwoD.v and SpecRelD.v | the shapes and multiplicities of the Pieri rule for one row longer than k (TwoRows.v, TwoRowsD.v, RelD.v), alternating sums of the coefficients, ring laws of C27 |
| C68 | `mult`, `qmult` with the special class S[N-1-m] of OG(m,N) | the only shape that can occur in the Pieri rule adds a full row (sizes); the same for the shapes of the q-terms; C45 |
| C69 | `giambelli`, `qgiambelli` of S[a,b] on IG and OG; polynomials of SpecTwo.v and SpecTwoD.v (OG(m,N) with N even, both types) | the Pieri rule for a single row (TwoRows.v, TwoRows2.v, TwoRowsD.v) gives the product of two special classes; the polynomials are the inverse of these sums (a convolution identity); the recursion of `giambelli_rec_inner` stays within two rows |
| C70 | `toS`, `SchurPol` | chains of horizontal strips from C01 correspond to tableaux (fill the j-th strip with j); C30 for `SchurPol` |
| C74 | `qcalc.py` 591-788 as functions of the module variables | induction on `act_lc`; a class that occurs in the left factor meets the Pieri function |
| C73 | `qmult`, `part2index` | iterate C54 in the ring (C05, C06); linear extension of a term-to-term map |
| C71 | `mult`, `pieri`, `dualize` | coefficients of Pieri products are not negative (C25), Pieri operators are self-adjoint (C48); supports of products by induction along Giambelli |
| C75 | `qmult`, `qpieri` | as C71; explicit chains of q-terms from the class of a point to the unit, with C02 and C44 |
| C76 | `act`, `qact`, `act_lc` | the operator calculus of OpTheory.v, from the commutation of the Pieri operators; for OG(N/2-1,N) the commutation is computed by the kernel for all classes of the seven spaces N <= 16 on which C42 says that qpieri is right |
| C77 | `qmult`, `qgiambelli`, `qact` with parameters q, q1, q2 | OpTheory.v with the set of parameters as an argument (TwoRing.v); that no q1 or q2 appears in qgiambelli of a class is C78 |
| C78 | `giambelli_rec_inner` with `pieri` and `qpieri` | induction on the recursion: the partitions it multiplies have one row less than a class and a smaller first row than the largest, where qpieri adds no quantum term (GiamSame.v) |
| C79 | `ModelThreads.v`: small-step semantics of threads with a call stack each and a shared cache; a step is a look-up, a store or a return | invariant: every cache entry is a value of the plain function, the stack of a thread evaluates to the plain value of its call; measure of the remaining work of a thread |
| C72 | `mult` and `qmult` on spaces with m = 1 | Pieri coefficients of two-row shapes (TwoRows.v, RelD.v); C44, C45, C27, C68 |
| C80 | `sage_schur_to_schur` on the dictionary of terms of the Sage element (Sage itself is not modelled) | the printed list is read back (C20) |
| C81 | SpecFree.v: multiplicity_free, near_rectangle | Pieri coefficients are 0 or 1 (C02); products with the full row and the full column rotate classes (C54, C73), which carries the claim from a row to every lam described; conjugation (C53); MultFree.v |
| C82 | SpecPos.v: acts_positively, specials_positive | positivity of the Pieri coefficients (C01, C02, C25) and the laws of the action (C76, C77): induction over the terms; PosFacts.v, ApiPos.v |
| C83 | SpecWeight.v: mono_degree, weighted, keeps_degree | induction over the recursion of giambelli_rec_inner with the degrees of the Pieri rules (C26); C78 for the spaces with two parameters; WtFacts.v, ApiWeight.v |
| C84 | SpecPieri.v: homogeneous12; SpecWeight.v: same_part_without_q | qgiambelli = giambelli (C78), C83, and a comparison of two actions term by term from the laws of C76; RelAct.v, ApiWeight.v |
| C85 | SpecPair.v: duality_law12, symmetric_constants12 | the Pieri operators of the seven spaces are self-adjoint for the pairing of classes with their duals (computed by the kernel, TwoDual.v); self-adjoint operators are closed under products and sums (TwoPair.v, RelAct.v), so multiplication by any class is self-adjoint; with C77 (unit); ApiTwo.v |
| C86 | SpecPair.v: chain12, never_zero12 | chains from the unit by the Giambelli recursion, to the point class by duality, and from the point class to the unit by computation; the coefficient of the point class (C85) and positivity (C44) give the product; ApiTwo.v, ApiTwoZ.v |
| C87 | SpecIter.v: row_list, previous, least, steps_down | the step functions of Schub.v and BetwFacts.v with a bound for the entries chosen after the lists compared; the order of padded lists is the order of the clipped ones; IterFacts.v |
| C88 | SpecIter.v: rows_with_boxes | induction on the lists; IterFacts.v |
| C89 | SpecQG.v: put, row_becomes, half_q | induction over the recursion giambelli_rec_inner on both spaces at once: a term of the classical product on IG(m+1,N+2) with first row N+1-m is a term q/2 of the quantum product on IG(m,N), by the definition of qpieriC; QGiamC.v, ApiQG.v |
| C90 | SpecMinQ.v: chain_q, smallest_q, smallest_q_law | Giambelli writes a class as a polynomial in special classes, so a term with q^d gives a chain with at most d factors q; a chain gives a product of special classes with a positive coefficient, and the symmetry of the constants (C49) turns it into a term with at most as many factors q; MinQ.v. The explicit forms by constructing chains that remove rows and columns; ApiMinQ.v |
| C91 | SpecMaxQ.v: has_power, q_overlap | a product of at most m special classes has no q and the classes are combinations of such products, so with the symmetry of the constants (C49) q^d occurs exactly if a chain of at most m quantum Pieri steps with d factors q leads from lam to the dual of mu; QOcc.v. Classes with a power of q are periodic sequences (CylA.v), a chain of r strips leads from a to b exactly if a_j <= b_j <= a_{j-r}; LoopQ.v |
| C92 | vocabulary of Spec.v only | for the pairing in which the classes are orthonormal and q is unitary (StrangePair.v) the product with the largest special class is unitary and the adjoint of the product with S_i is the product with S_(k-i) up to it: in periodic sequences (CylA.v) a horizontal strip from a to b is a strip from b to a moved by one step. So every product has an adjoint which is a product; the pairing with the class of a point (C48) identifies it; Strange.v, StrangeA.v |
| C93 | SpecLines.v: two_rows, lines_index, lines_term (the Clebsch-Gordan rule and at most two rim hooks) | S[a,b] is S[1,1]^b S[a-b] and S[1,1] moves a shape by one column (C54), so the product is that of two special classes (C02) moved by b+e columns; Lines.v |
| C94 | SpecCyl.v: periodic_row, moved, cyl_strip, cyl_tableau | induction on the list: one factor is one step of the quantum Pieri rule, whose terms are the interlacing periodic sequences (CylA.v, LoopQ.v); every step on the cylinder ends at a class with a power of q; QKostka.v |
| C95 | SpecOutside.v: contains, not_in, raises, refuses, endless | induction on the recursion depth: the Pieri rule never produces the symbol, so S[lam] occurs again in what remains to be expanded; either the rest of lam is outside too, or lam itself comes back; Outside.v |
| C96 | SpecDegree.v: power_of_S1, frobenius, schur_formula, power_law | the coefficients satisfy a recurrence over the shapes with one box less (Degree.v, DegreeLow.v); the closed formulas solve it, by the partial fraction expansion of a product of linear factors (PartialFrac.v, DegreeAlg.v); a box added to a strict partition is one connected component (DegreeMax.v) |
| C97 | statement written out in PropsSeidelC.v | the coefficients of the quantum Pieri rule are sums over walks of an automaton along two words (Transfer.v); reading the words backwards with the letters of the rows exchanged is a symmetry of the automaton (SeidelC.v), and a symmetry of the Pieri coefficients is multiplication by the image of S[] (SeidelSys.v) |
| C98 | SpecSeidel.v: top_sym; the three cases are written out in PropsSeidelB.v | changing the first letter of both words is a symmetry of the walks that the quantum Pieri coefficients count (SeidelB.v); in type D the types are exchanged when the letter is that of an empty row; a symmetry of the Pieri coefficients is multiplication by the image of S[] (SeidelSys.v, SeidelApi.v) |
| C99 | SpecSeidel.v: middle, spin_class, top_sym | the word of the index set of a class is reversed with its two non-zero letters exchanged; the walks that the quantum Pieri coefficients count are reversed, and the sign of the last letter, which decides the type, is followed through the reversal (SeidelD.v); a symmetry of the Pieri coefficients is multiplication by the image of S[] (SeidelSys.v, SeidelDApi.v) |
| C100 | SpecSeidel.v: top_sym; the rows of the result are written out in PropsSeidelP.v | the word of lam is completed by a letter that makes the number of its rows even, then reversed with the two letters exchanged; the walks that the quantum Pieri coefficients count are reversed (SeidelP.v); OG(n+1,2n+2) by C59 |
| C101 | SpecDepth.v: giambelli_limited, qgiambelli_limited (the recursion with a limit on the nesting), boxes_below_first_row, shallow | each inner call has fewer boxes below its first row: the rest of the shape loses its own first row, the other terms of the Pieri product have the same size and a longer first row, and a term with q loses at least as many boxes as the first row has (Depth.v); more nesting does not change a result (giam_mono) |
| C102 | SpecPfaff.v: take_row, expands, row_expansions | strict partitions as words over two letters; the Pieri rule is a transfer kernel, and two alternating sums over it are evaluated by induction on the words (PfaffWords.v: sum_T, main_K); Pfaff.v turns them into identities of operators, first the two-row formula and then the expansions; Pfaff3.v checks the kernels of types C and B with their q-terms, and type D follows from C59 |
| C103 | SpecPfaff.v: pfaffian, pfaffian_formula | induction on the number of rows from the expansion along the first row (C102), with associativity of the product for polynomial factors (PfaffFull.v: pf_ok) |
| C104 | SpecPres.v: in_ideal, special_poly, relation, qrelation | the determinants satisfy the Pieri rule with m+1 rows (C62); a column operation shows that a determinant with m+1 rows is, modulo the relations, 0 or q times the determinant of Bertram's rule (PresIdeal.v: dd_top, flat_perm); so a polynomial is congruent to the combination of determinants given by its value (PresIdeal2.v: stepC) |
| C105 | SpecPresMax.v: relation_LG, qrelation_LG, relation_OG, qrelation_OG, presents | modulo the relations the combinations of Giambelli polynomials are closed under multiplication by a special class, by induction on the degree, the size and the order of the Giambelli recursion (PresMax.v: clo); so a polynomial is congruent to the combination given by its value (pres_max); the relations hold by C67 (PresMax2.v) |
| C106 | no further definitions: mult, qmult, class_IG, coef | replacing S[n+1,l] by q/2 S[l] turns the product with a special class on the larger space into the quantum product on the smaller one up to q^2 (LGQuant.v: step_small, star_top, star); by induction along the Giambelli recursion of the larger space the same holds for all classes (main); then coefficients are compared (coef_psi, Mb_at) |
| C107 | no further definitions: mult, qmult, class_IG, coef | as for C106, with the classes counted by rows: a special class adds at most one row (term_W, nextW), a class of the larger space with m+1 rows and no row t is put to 0, and the induction along the Giambelli recursion keeps the number of rows at most m+1 (IGQuant.v: star_next, main_l) |
| C108 | no further definitions: mult, class_IG, class_OG, coef | putting the classes outside IG(m,N) to 0 commutes with the products: a Pieri product with a class that does not fit has no term that fits (StabC.v: nofit), and for the rest both Pieri rules agree (coef_sm); the induction along the Giambelli recursion is done once for two Pieri systems (Restrict.v: r_main), j steps follow by induction; OG with N odd follows by C60, OG with N even and Gr in the same way (StabD.v, StabA.v), the spinor varieties by C59 |
| C109 | SpecRows.v: rows_above replaces the classes S[x] with x > c by 0 | the recursion is the only solution of its defining equations (GiamDet.v: giam_unique); the image of the larger space's polynomials solves the equations of the smaller one, because a class with a row that does not fit has a polynomial divisible by that special class (GiamStab.v: top_zero, gs_main); j steps by GiamStab.v: chain; Gr from the determinant of C62 |
| C110 | SpecRows.v: fits_box, keep | one step: the Pieri rule of X is that of X' with the classes put to 0, and what does not fit never comes back (the facts behind C108), then Restrict.v: r_main for classes and RestrictPoly.v: r_poly for polynomials; j steps by StabHom.v: hom_chain, as putting to 0 in two steps is putting to 0 at once |
| C111 | SpecPush.v: dual_to, pushed, push_law | from C108 by moving the coefficients to the dual classes (C48, C49) on both spaces (Push.v: push_ok) |

## Trusted base

* The kernel of Coq 8.16.1 (and `vm_compute`, used in concrete cases, for refutations, and for the finite facts about the seven spaces OG(n,2n+2), n <= 7, behind C77, C85 and C86: the operators commute, are self-adjoint, and a chain leads from the point class to the unit).
* Axioms: none.  `Print Assumptions` below each of the theorems in `Props*.v` answers "Closed under the global context".  No axiom of the standard library is used.  (The library `Coq.ssr.ssrunder`, which files of the standard library load, declares parameters that a listing of all loaded axioms shows; no theorem depends on them.)
* The fidelity of the hand-written model to the Python text, as documented at each definition (file and lines), and the meaning given to Python constructs in `Py.v`.
* That sympy computes with polynomials as described above: `expand`, `subs`, `free_symbols`, division of a polynomial by a symbol it is divisible by, and `str`/`parse_expr` round trips.

### Not modelled

`export_png` and `print` of tables (calls of matplotlib and pandas); the axes and colours of matplotlib figures (rectangles, limits and label are modelled); Sage, and `schur_to_sage_schur`, which hands a bound method to it; `testcases` and `example`; assignments to the module variables of `qcalc.py` other than the attributes of a Grassmannian; non-polynomial sympy expressions; float coefficients.  Threads are modelled only as callers of the memoised functions (C79); looking up and storing an entry of a memo table are atomic there.

## Findings

Each is a theorem whose name ends in `_refuted`.

| theorem | what the code does |
|---|---|
| `C12_m0_refuted` | `Gr(0,n).schub_classes()` lists nothing although there is one class |
| `C13_cols_refuted` | `all_kstrict` with cols < k lists partitions that do not fit |
| `C27_two_parameters_refuted` | on OG(2,6) `qmult(qmult(S[2,1],S[1]),S[1])` raises ValueError: q1 and q2 are not accepted in the left factor |
| `C78_IG_refuted` | not a defect: on IG(2,4) `qgiambelli(S[2,1]) = S[1] S[2] - q` while `giambelli(S[2,1]) = S[1] S[2]`; so the two formulas cannot be exchanged on IG |
| `C29_refuted` | on Gr(3,6) `qmult_rh(S[3,2],S[3,3,1])` differs from `qmult` |
| `C31_refuted` | `to_polinomial_str` drops trailing zeros of the object it prints |
| `C32_OG_refuted` | `OrthogonalGrassmannian(m,N)` accepts m > N/2 |
| `C33_IG_refuted`, `C33_OG_refuted` | `clone()` of IG and OG returns another Grassmannian or raises |
| `C34_*_refuted` | list arguments of `part2index`, `type_swap`, and of pairs on OG raise |
| `C36_generators_OG0_refuted` | `OG(0,N)` has generators that are not classes |
| `C39_number_refuted`, `C39_bare_q_refuted` | `schur_expansion` truncates rational numbers, recurses for ever on `q` |
| `C57_label` | the label of the LaTeX picture is placed by the number of rows, not of columns, so it is not centred (plot_partition centres it) |
| `C80_sums_refuted` | `sage_schur_to_schur` drops the coefficient and all terms but one; 0 raises IndexError |
| `C40_narrow_refuted`, `C40_empty_refuted` | ASCII pictures too narrow for the partition; IndexError for the empty one |
| `C41_in_range_zeros_refuted` | `is_in_range` counts trailing zeros as rows |
| `C55_order_refuted` | `LinearCombination + Schur` and `LinearCombination * Schur` raise although the other order works |
| `C55_zero_refuted` | a Schur object plus the LinearCombination 0 raises ValueError |
| `C55_minus_kind_refuted` | LinearCombination minus a number is a bare sympy expression |
| `C65_len_refuted` | `len` of the single term 3*S[1] is 2 |
| `C74_names_refuted` | `giambelli`, `mult`, `toS`, `qgiambelli`, `qtoS` of the module `qcalc` call a function that does not exist |
| `C42_refuted`, `C42_two_parameters` | `qpieri` on OG(8,18) raises ParseError on a class; on every OG(N/2-1,N) with N > 16 it raises or returns symbols that are not classes |
| `C88_zero_rows_refuted` | `skew_partition_height([], mu)` counts the zero rows of mu, `skew_partition_height(lam, mu)` with a non-empty lam does not |
| `C95_right_refuted`, `C95_index_refuted`, `C95_qindex_refuted` | symbols and indices outside the space are accepted silently: on Gr(2,4) `mult(S[1],S[3]) = S[2,2]` while `mult(S[3],S[1])` recurses for ever; on Gr(3,6) `pieri(-1,S[2,1]) = S[1,1]`; on Gr(2,3) `qpieri(5,S[1,1]) = q` |
| `C87_gen` (example) | `part_gen(lam)` is not limited to the diagrams inside lam: `part_gen([3,1])` contains [2,2]; the library only calls it for rectangles |

## Tests against wrong programs

`seeded/LOG.jsonl` lists the edits made to scratch copies of the model, the claim each edit makes false, and the theorems that stopped proving.
