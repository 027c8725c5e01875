{"id": "C01", "title": "Type A Pieri is exactly the horizontal-strip rule", "statement": "For Gr(m,n), pieri(i, S[lam]) terminates without exception and is the sum, each with coefficient exactly 1, of S[mu] over all partitions mu in the m x (n-m) rectangle such that mu/lam is a horizontal strip with i boxes; nothing else occurs.", "quantifier": "every m>=1, n>=m, every partition lam in the m x (n-m) rectangle, every integer i>=0", "why_tests_cant": "the output is produced by a next-configuration iterator (fill/backtrack); skipped, repeated or illegal configurations can show up only for shapes beyond any finite list", "anchors": [{"file": "schubertpy/grassmannian.py", "symbols": ["pieriA_inner"]}, {"file": "schubertpy/abstract_grassmannian.py", "symbols": ["pieri"]}, {"file": "schubertpy/qcalc.py", "symbols": ["_pieri_fillA", "_pieri_itrA"]}, {"file": "schubertpy/partition.py", "symbols": ["part_clip"]}]}
{"id": "C02", "title": "Type A quantum Pieri is exactly Bertram's rule", "statement": "For Gr(m,n), qpieri(i, S[lam]) equals the classical Pieri sum plus q times the sum (coefficient 1) of S[mu] over partitions mu with |mu| = |lam|+i-n and lam1-1 >= mu1 >= lam2-1 >= ... >= lam_m-1 >= mu_m >= 0; no other power of q occurs.", "quantifier": "every 1<=m<n, every partition lam in the rectangle, every i with 1<=i<=n-m", "why_tests_cant": "special-cased branches (k==1, full first column, star of a smaller Grassmannian) interact for all shapes; examples cover only a few", "anchors": [{"file": "schubertpy/grassmannian.py", "symbols": ["qpieriA_inner"]}, {"file": "schubertpy/abstract_grassmannian.py", "symbols": ["qpieri"]}, {"file": "schubertpy/qcalc.py", "symbols": ["_part_star"]}]}
{"id": "C03", "title": "Type A Pieri operators commute", "statement": "Multiplying by special class i and then by special class j gives the same linear combination as j then i, for pieri and for qpieri, so the value of act/qact does not depend on the order in which variables are eliminated.", "quantifier": "every Gr(m,n) with 1<=m<n, every partition in the rectangle, every 1<=i,j<=n-m", "why_tests_cant": "a quadratic identity between sums of unbounded size over all shapes", "anchors": [{"file": "schubertpy/abstract_grassmannian.py", "symbols": ["act_lc", "pieri", "qpieri"]}, {"file": "schubertpy/grassmannian.py", "symbols": ["pieriA_inner", "qpieriA_inner"]}]}
{"id": "C04", "title": "Giambelli is correct and terminates in type A", "statement": "toS(S[lam]) = S[lam] and qtoS(S[lam]) = S[lam]: giambelli/qgiambelli terminate with a polynomial in special classes only, and acting with it on S[] gives back the class.", "quantifier": "every Gr(m,n) with 1<=m<n and every partition lam in the rectangle", "why_tests_cant": "termination of a mutual recursion whose recursive calls are on data-dependent terms; correctness is an algebraic identity for all shapes", "anchors": [{"file": "schubertpy/abstract_grassmannian.py", "symbols": ["giambelli", "qgiambelli", "giambelli_rec_inner", "giambelli_rec", "act_lc", "toS", "qtoS", "spec2num", "num2spec"]}]}
{"id": "C05", "title": "Products are commutative in type A", "statement": "mult(a,b) = mult(b,a) and qmult(a,b) = qmult(b,a).", "quantifier": "every Gr(m,n), 1<=m<n, all linear combinations a,b of classes in the rectangle with rational coefficients and powers of q", "why_tests_cant": "universally quantified over pairs of classes of unbounded size; the two sides run entirely different computations (giambelli of a vs giambelli of b)", "anchors": [{"file": "schubertpy/abstract_grassmannian.py", "symbols": ["mult", "qmult", "act_lc", "giambelli_rec_inner"]}]}
{"id": "C06", "title": "Products are associative in type A", "statement": "mult(mult(a,b),c) = mult(a,mult(b,c)) and the same for qmult.", "quantifier": "every Gr(m,n), 1<=m<n, all linear combinations a,b,c of classes in the rectangle", "why_tests_cant": "universally quantified over triples; a finite multiplication table says nothing about the next Grassmannian", "anchors": [{"file": "schubertpy/abstract_grassmannian.py", "symbols": ["mult", "qmult", "act_lc", "giambelli_rec_inner"]}]}
{"id": "C07", "title": "Products are unital and bilinear in type A", "statement": "mult(S[],b) = b, mult(a,S[]) = a, and mult/qmult are additive and Q[q]-homogeneous in each argument.", "quantifier": "every Gr(m,n), 1<=m<n, all linear combinations, all rational scalars", "why_tests_cant": "quantified over all linear combinations", "anchors": [{"file": "schubertpy/abstract_grassmannian.py", "symbols": ["mult", "qmult", "act_lc", "giambelli_rec"]}]}
{"id": "C08", "title": "toS/qtoS are ring homomorphisms in type A", "statement": "Converting a product of classes to a linear combination is the same as multiplying the converted factors: toS(a*b) = mult(toS(a), toS(b)), and the same for qtoS/qmult (so S[2,1]^3 may be entered directly).", "quantifier": "every Gr(m,n), 1<=m<n, all polynomial expressions a,b in classes of the rectangle", "why_tests_cant": "quantified over all polynomial expressions of any degree", "anchors": [{"file": "schubertpy/abstract_grassmannian.py", "symbols": ["toS", "qtoS", "act_lc", "giambelli_rec"]}, {"file": "schubertpy/lc.py", "symbols": ["LinearCombination.apply"]}]}
{"id": "C09", "title": "Quantum product specialises to the classical product at q=0 in type A", "statement": "The part of qmult(a,b) (and qpieri, qtoS) free of q is mult(a,b) (resp. pieri, toS).", "quantifier": "every Gr(m,n), 1<=m<n, all q-free linear combinations a,b", "why_tests_cant": "quantified over all shapes", "anchors": [{"file": "schubertpy/abstract_grassmannian.py", "symbols": ["mult", "qmult"]}, {"file": "schubertpy/grassmannian.py", "symbols": ["pieriA_inner", "qpieriA_inner"]}]}
{"id": "C10", "title": "Type A results are homogeneous of the right degree", "statement": "With deg S[mu]=|mu| and deg q = degree_q() = n, every term of pieri/qpieri(i,S[lam]) has degree |lam|+i and every term of mult/qmult(S[lam],S[mu]) has degree |lam|+|mu|; every coefficient is an integer.", "quantifier": "every Gr(m,n), 1<=m<n, all lam, mu in the rectangle, 1<=i<=n-m", "why_tests_cant": "quantified over all shapes", "anchors": [{"file": "schubertpy/grassmannian.py", "symbols": ["degree_q", "pieriA_inner", "qpieriA_inner"]}, {"file": "schubertpy/abstract_grassmannian.py", "symbols": ["mult", "qmult"]}]}
{"id": "C11", "title": "Poincare duality in type A", "statement": "The coefficient of point_class() in mult(S[lam],S[mu]) is 1 if S[mu] = dualize(S[lam]) and 0 for every other class mu.", "quantifier": "every Gr(m,n), 1<=m<n, all partitions lam, mu in the rectangle", "why_tests_cant": "relates the multiplication engine with the index arithmetic for all shapes", "anchors": [{"file": "schubertpy/abstract_grassmannian.py", "symbols": ["mult"]}, {"file": "schubertpy/grassmannian.py", "symbols": ["dualize", "point_class"]}, {"file": "schubertpy/qcalc.py", "symbols": ["dualize_index_inner", "part2indexA_inner", "index2partA_inner"]}]}
{"id": "C12", "title": "schub_classes of Gr(m,n) lists every class exactly once", "statement": "For m >= 1, Gr(m,n).schub_classes() is the strictly increasing (lexicographic) list of all clipped partitions in the m x (n-m) rectangle: complete, no duplicates, C(n,m) entries. (For m = 0 it is empty although the point Gr(0,n) has one class: refuted.)", "quantifier": "every 1<=m<=n", "why_tests_cant": "completeness/termination of a successor iteration for every rectangle; the degenerate m=0 Grassmannian is one of the cases", "anchors": [{"file": "schubertpy/grassmannian.py", "symbols": ["schub_classes"]}, {"file": "schubertpy/qcalc.py", "symbols": ["part_gen", "part_itr", "part_len"]}, {"file": "schubertpy/schur.py", "symbols": ["unique_schur_list"]}]}
{"id": "C13", "title": "all_kstrict / schub_classes in types B, C, D list every k-strict class exactly once", "statement": "all_kstrict(k,rows,cols) terminates and returns exactly the clipped partitions with at most rows parts, parts <= cols, and no repeated part > k, each once; schub_classes() of IG and odd OG is that list sorted; for even OG classes containing a part equal to k>0 occur once for each of the two types. (For cols < k, all_kstrict also lists partitions that do not fit: refuted.)", "quantifier": "all 0<=k<=cols, rows>=0; every IG(m,2n), OG(m,2n+1), OG(m,2n+2)", "why_tests_cant": "completeness and termination of a successor iteration with three branches for all parameters", "anchors": [{"file": "schubertpy/utils/kstrict.py", "symbols": ["_first_kstrict", "_itr_kstrict", "all_kstrict"]}, {"file": "schubertpy/isotropic_grassmannian.py", "symbols": ["schub_classes"]}, {"file": "schubertpy/orthogonal_grassmannian.py", "symbols": ["schub_classes"]}]}
{"id": "C14", "title": "part_conj is conjugation", "statement": "part_conj(lam) is the conjugate partition: its j-th entry is the number of parts of lam that are >= j; it is an involution on clipped partitions and preserves the size.", "quantifier": "every partition, with any number of trailing zeros", "why_tests_cant": "quantified over all partitions", "anchors": [{"file": "schubertpy/qcalc.py", "symbols": ["part_conj"]}, {"file": "schubertpy/partition.py", "symbols": ["part_clip"]}]}
{"id": "C15", "title": "part2index and index2part are mutually inverse in type A", "statement": "On Gr(m,n), part2index maps the classes in the rectangle bijectively onto the m-element increasing index sets in 1..n and index2part is its two-sided inverse.", "quantifier": "every Gr(m,n), every class in the rectangle, every index set", "why_tests_cant": "quantified over all shapes", "anchors": [{"file": "schubertpy/qcalc.py", "symbols": ["part2indexA_inner", "index2partA_inner"]}, {"file": "schubertpy/grassmannian.py", "symbols": ["part2index", "index2part"]}]}
{"id": "C16", "title": "part2index and index2part are mutually inverse in types B, C, D", "statement": "On IG/OG, index2part(part2index(S[lam])) = S[lam] for every class, and the index sets produced are strictly increasing subsets of 1..N of the right cardinality that contain no pair p, N+1-p.", "quantifier": "every IG(m,2n), OG(m,2n+1), OG(m,2n+2) with valid m, every k-strict (typed for D) class in the rectangle", "why_tests_cant": "depends on pair counting over all pairs of rows, for all shapes", "anchors": [{"file": "schubertpy/qcalc.py", "symbols": ["part2indexB_inner", "part2indexC_inner", "part2indexD_inner", "_count_inner", "index2partB_inner", "index2partC_inner", "index2partD_inner"]}, {"file": "schubertpy/isotropic_grassmannian.py", "symbols": ["part2index", "index2part"]}, {"file": "schubertpy/orthogonal_grassmannian.py", "symbols": ["part2index", "index2part"]}]}
{"id": "C17", "title": "dualize is a degree-complementing involution", "statement": "dualize(dualize(S[lam])) = S[lam]; dualize(S[lam]) is a class of the same Grassmannian of degree dim - |lam|; dualize(S[]) = point_class(). In type A it is the complement of the Young diagram in the rectangle.", "quantifier": "every Grassmannian of type A, B, C, D and every class", "why_tests_cant": "quantified over all shapes; the D case has a parity-dependent index swap", "anchors": [{"file": "schubertpy/qcalc.py", "symbols": ["dualize_index_inner"]}, {"file": "schubertpy/grassmannian.py", "symbols": ["dualize", "point_class"]}, {"file": "schubertpy/isotropic_grassmannian.py", "symbols": ["dualize", "point_class"]}, {"file": "schubertpy/orthogonal_grassmannian.py", "symbols": ["dualize", "point_class"]}]}
{"id": "C18", "title": "part2pair and pair2part are mutually inverse", "statement": "pair2part(part2pair(S[lam])) = S[lam] for every k-strict partition (with its type-2 marker zero, if any), and the pair consists of the k column heights of the part inside the first k columns and the row excesses beyond column k.", "quantifier": "all k>=0 and all k-strict partitions", "why_tests_cant": "quantified over all shapes; trailing-zero marker handling", "anchors": [{"file": "schubertpy/qcalc.py", "symbols": ["part2pair_inner", "pair2part_inner"]}, {"file": "schubertpy/isotropic_grassmannian.py", "symbols": ["part2pair", "pair2part"]}, {"file": "schubertpy/orthogonal_grassmannian.py", "symbols": ["part2pair", "pair2part"]}]}
{"id": "C19", "title": "type_swap and miami_swap are involutions exchanging the two types", "statement": "On even OG, type_swap exchanges types 1 and 2 of a class having a part k and fixes the others; it is an involution; miami_swap does so exactly for classes with an odd number of parts > k; outside type D both are the identity. schub_type(lam) is 0 for a class without a part k, 1 and 2 for the two types of a class with one, and raises ValueError outside type D.", "quantifier": "every even OG with k>=1 and every class", "why_tests_cant": "quantified over all classes", "anchors": [{"file": "schubertpy/qcalc.py", "symbols": ["type_swap_inner"]}, {"file": "schubertpy/abstract_grassmannian.py", "symbols": ["static_miami_swap_inner", "miami_swap"]}, {"file": "schubertpy/orthogonal_grassmannian.py", "symbols": ["type_swap", "schub_type"]}]}
{"id": "C20", "title": "Symbol encoding is faithful", "statement": "Printing a Schur class to a symbol and reading it back gives the same class; different classes give different symbols; every symbol of a class with nonnegative entries is a valid identifier beginning with S.", "quantifier": "every nested list of nonnegative integers", "why_tests_cant": "quantified over all partitions with multi-digit entries", "anchors": [{"file": "schubertpy/schur.py", "symbols": ["Schur.__str__", "Schur.symbol", "toSchur", "isSchur"]}, {"file": "schubertpy/utils/const.py", "symbols": ["ftable", "btable", "encode", "decode"]}]}
{"id": "C21", "title": "Memoisation is transparent", "statement": "A cached method returns for every call, in every history of calls, what the uncached method would return.", "quantifier": "every finite history of calls with arbitrary arguments", "why_tests_cant": "depends on all call histories", "anchors": [{"file": "schubertpy/utils/hash.py", "symbols": ["hashable_lru_cache", "hashable_lru_cache_method"]}, {"file": "schubertpy/grassmannian.py", "symbols": ["pieriA_inner"]}, {"file": "schubertpy/orthogonal_grassmannian.py", "symbols": ["pieriB_inner", "pieriD_inner", "qpieriD_inner"]}, {"file": "schubertpy/isotropic_grassmannian.py", "symbols": ["pieriC_inner"]}, {"file": "schubertpy/abstract_grassmannian.py", "symbols": ["giambelli_rec_inner"]}]}
{"id": "C22", "title": "apply_lc is substitution", "statement": "LinearCombination.apply(f) is the Q-algebra homomorphism that replaces each class S[lam] by f(lam) and leaves numbers and q alone: additive, multiplicative, fixes scalars, independent of how the expression is bracketed.", "quantifier": "every polynomial expression and every function f", "why_tests_cant": "quantified over all expressions and functions", "anchors": [{"file": "schubertpy/lc.py", "symbols": ["LinearCombination.apply", "LinearCombination.apply2"]}, {"file": "schubertpy/qcalc.py", "symbols": ["apply_lc"]}]}
{"id": "C23", "title": "Isotropic Pieri index set is well formed", "statement": "In types B, C, D pieri_set(p,lam,k,n,d) terminates without exception and every mu in it is a k-strict partition with |mu| = |lam|+p inside the (n+d-k) x (n+k) rectangle; the list is strictly decreasing lexicographically (no duplicates).", "quantifier": "all k>=0, n>=k, d in {0,1}, every k-strict lam in the rectangle, every p>=0", "why_tests_cant": "nested iterators with data-dependent bounds and in-place list mutation; index errors or malformed shapes may occur for large shapes only", "anchors": [{"file": "schubertpy/qcalc.py", "symbols": ["pieri_set", "_pieri_fill", "_pieri_itr", "part_itr_between", "sort_part"]}]}
{"id": "C24", "title": "Isotropic Pieri index set is exactly the Buch-Kresch-Tamvakis relation", "statement": "pieri_set(p,lam,k,n,d) contains mu if and only if lam -> mu in the sense of Buch-Kresch-Tamvakis (mu obtained by removing a vertical strip from the first k columns and adding a horizontal strip, with the k-relatedness conditions) and |mu|=|lam|+p.", "quantifier": "all k,n,d, lam, p as above", "why_tests_cant": "exactness of an optimised enumeration for all shapes", "anchors": [{"file": "schubertpy/qcalc.py", "symbols": ["pieri_set"]}]}
{"id": "C25", "title": "Pieri coefficients in types B, C, D are positive integers", "statement": "Every coefficient of pieri and qpieri on IG and OG is a positive integer (the halves introduced by q/2 and by 2**(N-1) cancel).", "quantifier": "every IG/OG, every class, every special class index in 1..n+k (and the second class of degree k in type D)", "why_tests_cant": "cancellation of denominators for all shapes", "anchors": [{"file": "schubertpy/isotropic_grassmannian.py", "symbols": ["pieriC_inner", "qpieriC_inner"]}, {"file": "schubertpy/orthogonal_grassmannian.py", "symbols": ["pieriB_inner", "qpieriB_inner", "pieriD_inner", "_dcoef"]}, {"file": "schubertpy/qcalc.py", "symbols": ["count_comps", "calc_comps", "count_ones"]}]}
{"id": "C26", "title": "Isotropic (quantum) Pieri is homogeneous", "statement": "Every term of pieri/qpieri(p,S[lam]) on IG and OG has degree |lam|+|p|, counting q with degree_q() (for OG(n,2n+2), k=1: q1, q2 each of degree n+1 ... as reported by the class).", "quantifier": "every IG/OG, every class, every special class index", "why_tests_cant": "quantified over all shapes and all quantum-correction branches", "anchors": [{"file": "schubertpy/isotropic_grassmannian.py", "symbols": ["degree_q", "qpieriC_inner"]}, {"file": "schubertpy/orthogonal_grassmannian.py", "symbols": ["degree_q", "qpieriB_inner", "qpieriD_inner"]}, {"file": "schubertpy/qcalc.py", "symbols": ["_part_star", "_part_tilde"]}]}
{"id": "C27", "title": "Ring laws in types B, C, D follow from commuting Pieri operators", "statement": "For IG and OG: giambelli terminates on every class, toS(S[lam]) = S[lam], and mult/qmult is commutative, associative and unital. Exception: the quantum ring of OG(N/2-1,N), N even, which has two quantum parameters; there qmult raises on some products (C27_two_parameters_refuted) and qpieri on some classes (C42_refuted).", "quantifier": "every IG/OG, every class (quantum: all but OG(N/2-1,N))", "why_tests_cant": "algebraic identities over all shapes", "anchors": [{"file": "schubertpy/abstract_grassmannian.py", "symbols": ["mult", "qmult", "giambelli_rec_inner", "act_lc"]}]}
{"id": "C28", "title": "Rim hook removal", "statement": "remove_rim_hooks(r, grid) terminates for every partition; when it reports c>0 hooks removed, the result fits in the grid and is obtained from the input by removing c successive rim hooks of r boxes each that start in the first row, so its size is the input's minus c*r, and the reported height is the number of rows that became shorter; it reports c>0 whenever such a removal exists and returns 0 or the empty partition otherwise; the input object is not modified.", "quantifier": "every partition, every hook size, every grid", "why_tests_cant": "termination and shape invariants of a nested loop for all shapes", "anchors": [{"file": "schubertpy/partition.py", "symbols": ["Partition.remove_rim_hooks", "skew_partition_height", "Partition.is_in_range"]}]}
{"id": "C29", "title": "qmult_rh against qmult", "statement": "On Gr(m,n), m >= 1, qmult_rh(S[lam],S[mu]) returns for every pair of classes. Its coefficient of q^d S[nu] is the sum, over the terms S[ka] of the classical product in Gr(m,2n-1) whose partition ka is reduced to nu by removing d rim hooks of n boxes, of the coefficient times (-1)^(m-h), h the number of rows that the d hooks change together. It equals the coefficient in qmult(S[lam],S[mu]) when d <= 1, and the two results are equal when |lam|+|mu| < 2n. (That the two results are equal for all classes, as the documentation says, is false: Gr(3,6), S[3,2]*S[3,3,1].)", "quantifier": "every Gr(m,n) with m >= 1, every pair of classes, every d and nu", "why_tests_cant": "two unrelated algorithms compared over all inputs; sign errors only show once two or more hooks with unequal heights are removed", "anchors": [{"file": "schubertpy/grassmannian.py", "symbols": ["Grassmannian.qmult_rh"]}, {"file": "schubertpy/abstract_grassmannian.py", "symbols": ["qmult"]}]}
{"id": "C30", "title": "SchurPol computes the Schur polynomial", "statement": "SchurPol(n,kappa) is the sum over semistandard Young tableaux (equivalently Gelfand-Tsetlin patterns) of shape kappa with entries in 1..n of the monomials x^content.", "quantifier": "every n>=1 and every partition kappa", "why_tests_cant": "a memoised recursion with three branch types, all shapes", "anchors": [{"file": "schubertpy/utils/mix.py", "symbols": ["SchurPol", "__make_partition__", "__N__"]}]}
{"id": "C31", "title": "Rendering a class does not change it", "statement": "Schur.to_polinomial_str(n) changes the Schur object in exactly one way: it drops the final zeros of the partition. So an object without final zeros is unchanged. (That it never changes the object is false: refuted.)", "quantifier": "every class and n", "why_tests_cant": "aliasing: the effect is visible only on a later use of the same object", "anchors": [{"file": "schubertpy/schur.py", "symbols": ["Schur.to_polinomial_str"]}, {"file": "schubertpy/utils/mix.py", "symbols": ["__drop_trailing_zeros__"]}]}
{"id": "C32", "title": "What the constructors accept", "statement": "Grassmannian(m,n) succeeds iff 0<=m<=n; IsotropicGrassmannian(m,n) iff n even and 0<=m<=n/2; OrthogonalGrassmannian(m,n) iff 0<=m and 0<=n (it does not check m<=n/2, so it accepts Grassmannians that do not exist: refuted); get_type_data reports the constructor's arguments back.", "quantifier": "all integers m, n", "why_tests_cant": "quantified over all integers", "anchors": [{"file": "schubertpy/grassmannian.py", "symbols": ["__init__", "get_type_data"]}, {"file": "schubertpy/isotropic_grassmannian.py", "symbols": ["__init__", "get_type_data"]}, {"file": "schubertpy/orthogonal_grassmannian.py", "symbols": ["__init__", "get_type_data"]}]}
{"id": "C33", "title": "clone", "statement": "Gr(m,n).clone() is the same Grassmannian. For IG and OG the clone is never the same Grassmannian (another one, or ValueError): the property fails for every one of them.", "quantifier": "every Grassmannian of every type", "why_tests_cant": "quantified over all objects", "anchors": [{"file": "schubertpy/abstract_grassmannian.py", "symbols": ["clone"]}]}
{"id": "C34", "title": "List arguments in place of classes", "statement": "With a list in place of the class S[list]: mult, qmult, toS, qtoS, pieri, qpieri, miami_swap, index2part, and on IG part2pair and pair2part, return the same as with the class. part2index and type_swap raise for every list, and part2pair, pair2part raise for every list on OG.", "quantifier": "every Grassmannian of each type and every class", "why_tests_cant": "quantified over all inputs", "anchors": [{"file": "schubertpy/grassmannian.py", "symbols": ["part2index"]}, {"file": "schubertpy/isotropic_grassmannian.py", "symbols": ["part2index", "type_swap"]}, {"file": "schubertpy/orthogonal_grassmannian.py", "symbols": ["part2index", "part2pair", "pair2part", "type_swap"]}, {"file": "schubertpy/qcalc.py", "symbols": ["part2index", "fail_no_type"]}]}
{"id": "C35", "title": "spec2num and num2spec are inverse", "statement": "spec2num(num2spec(p)) = p for each index p of a special class; spec2num rejects classes that are not special.", "quantifier": "every nonzero integer p allowed by the type; every class", "why_tests_cant": "quantified over all integers", "anchors": [{"file": "schubertpy/abstract_grassmannian.py", "symbols": ["spec2num", "num2spec"]}]}
{"id": "C36", "title": "generators and point_class lie in schub_classes", "statement": "Every generator is one of schub_classes(); point_class() is the unique class of maximal degree. (For OG(0,N), generators that are not classes: refuted.)", "quantifier": "every Grassmannian of each type, m >= 1", "why_tests_cant": "quantified over all parameters", "anchors": [{"file": "schubertpy/grassmannian.py", "symbols": ["generators", "point_class"]}, {"file": "schubertpy/isotropic_grassmannian.py", "symbols": ["generators", "point_class"]}, {"file": "schubertpy/orthogonal_grassmannian.py", "symbols": ["generators", "point_class"]}]}
{"id": "C37", "title": "Multiplication tables are consistent", "statement": "The entry of MultTable(gr)/QMultTable(gr) at (a,b) is the (q)product of the row and column labels, the table is square over schub_classes(), both tables exist and are symmetric (in all types, except the quantum table of OG(N/2-1,N), N even, which has two parameters).", "quantifier": "every Gr(m,n), IG(m,2n), OG(m,N)", "why_tests_cant": "quantified over all tables", "anchors": [{"file": "schubertpy/mult_table.py", "symbols": ["AbstractMultTable", "MultTable", "QMultTable"]}]}
{"id": "C38", "title": "check_bijection_with_permutation decides equality of row sets", "statement": "The function returns True iff the two files contain the same set of normalised rows, irrespective of row order and repetitions.", "quantifier": "all pairs of finite row lists", "why_tests_cant": "quantified over all files", "anchors": [{"file": "schubertpy/csv_bijection.py", "symbols": ["check_bijection_with_permutation"]}]}
{"id": "C39", "title": "schur_expansion returns the terms of a linear combination", "statement": "For a sum of terms c*S[lam] (c a product of numbers and powers of q), schur_expansion() returns exactly the pairs (c, lam), sorted by lam, without the terms containing q when asked to leave them out; multiplying out and adding gives the expression back. A number is reported with the empty partition, truncated towards 0. (Outside: a rational number is truncated, a sum with a bare q is not answered: refuted.)", "quantifier": "every linear combination of classes", "why_tests_cant": "quantified over all expressions", "anchors": [{"file": "schubertpy/lc.py", "symbols": ["_schur_expansion", "_count_Schur", "_cutoff_Schur", "schur_expansion"]}]}
{"id": "C40", "title": "ASCII pictures have the right shape", "statement": "partition_to_ascii / embed_partition give one line per row, all lines of equal width, the i-th line containing exactly lam_i boxes, padded to the requested height and width, for every nonempty partition and a width at least that of the partition; draw_ascii_partition puts such pictures side by side. (With a smaller width the lines differ in width, and the empty partition raises IndexError: refuted.)", "quantifier": "every nonempty partition, width at least its first part, height", "why_tests_cant": "quantified over all shapes", "anchors": [{"file": "schubertpy/utils/mix.py", "symbols": ["partition_to_ascii", "embed_str", "embed_partition"]}]}
{"id": "C41", "title": "Validity predicates", "statement": "is_valid_part holds exactly for weakly decreasing lists of nonnegative integers; part_clip removes exactly the trailing zeros and is idempotent; has_part_zero_padding detects exactly the classes with a trailing zero; is_in_range holds iff the diagram fits, for partitions without final zeros (final zeros count as rows: refuted).", "quantifier": "all integer lists", "why_tests_cant": "quantified over all lists", "anchors": [{"file": "schubertpy/partition.py", "symbols": ["is_valid_part", "part_clip", "Partition.is_in_range"]}, {"file": "schubertpy/schur.py", "symbols": ["has_part_zero_padding"]}]}
{"id": "C42", "title": "When quantum Pieri on even orthogonal Grassmannians returns", "statement": "For OG(m,2n+2), qpieri(p, S[lam]) returns a linear combination for every class and every p, unless m = n and 2n+2 > 16. On the spaces OG(n,2n+2) (two quantum parameters) qpieri maps classes to combinations of classes exactly when 2n+2 <= 16: for every larger n there is a class on which it raises or returns a symbol that is not a class, because the code iterates over a set of integers as if it were sorted.", "quantifier": "every even OG with m>=1, every class lam, every p", "why_tests_cant": "the value passes through list(set(...)), whose order depends on the hash values of the elements; only particular partitions expose a wrong order", "anchors": [{"file": "schubertpy/orthogonal_grassmannian.py", "symbols": ["qpieriD_inner"]}, {"file": "schubertpy/qcalc.py", "symbols": ["_part_star", "_part_tilde"]}]}
{"id": "C43", "title": "Multiplying by a special class is the Pieri rule", "statement": "mult(S[i], c) = pieri(i, c) and qmult(S[i], c) = qpieri(i, c) on Gr(m,n).", "quantifier": "every Gr(m,n) with 1<=m<n, every linear combination c of classes, every 1<=i<=n-m", "why_tests_cant": "quantified over all linear combinations", "anchors": [{"file": "schubertpy/abstract_grassmannian.py", "symbols": ["mult", "qmult", "pieri", "qpieri"]}]}
{"id": "C44", "title": "Pieri and quantum Pieri rules of Buch, Kresch and Tamvakis", "statement": "On IG and OG, pieri(p,S[lam]) and qpieri(p,S[lam]) are exactly the linear combinations given by the (quantum) Pieri rules of Buch-Kresch-Tamvakis: the classes that occur, the powers of 2 and the powers of q (q1, q2 on OG(m,2m+2)) are those of the theorem, for every class and every special class, including both classes of degree k on even orthogonal Grassmannians.", "quantifier": "every IG(m,N), every OG(m,N) with 1<=m<=N/2, every class lam, every special class index p (on OG(m,2m+2): N<=16, see C42)", "why_tests_cant": "the coefficients come from component counts and type bookkeeping over unboundedly many shapes; a table of small cases does not cover every combination of types and quantum corrections", "anchors": [{"file": "schubertpy/isotropic_grassmannian.py", "symbols": ["pieriC_inner", "qpieriC_inner"]}, {"file": "schubertpy/orthogonal_grassmannian.py", "symbols": ["pieriB_inner", "qpieriB_inner", "pieriD_inner", "qpieriD_inner", "_dcoef"]}, {"file": "schubertpy/qcalc.py", "symbols": ["pieri_set", "count_comps", "_part_star", "_part_tilde"]}]}
{"id": "C45", "title": "Multiplying by a special class is the Pieri rule in types B, C, D", "statement": "On IG and OG, mult(S[i], c) equals pieri(i, c) and qmult(S[i], c) equals qpieri(i, c), for every special class (in even orthogonal type including the class of the second type, index -k) and every linear combination c of classes. Exception: the quantum ring of OG(N/2-1,N), N even, which has two quantum parameters; there qmult raises on some products (C27_two_parameters_refuted) and qpieri on some classes (C42_refuted).", "quantifier": "every IG/OG with m >= 1, every special class, every linear combination of classes (quantum: all but OG(N/2-1,N))", "why_tests_cant": "an identity between two different computations over all shapes and sizes", "anchors": [{"file": "schubertpy/abstract_grassmannian.py", "symbols": ["mult", "qmult", "toS", "qtoS", "giambelli_rec_inner", "act_lc", "pieri", "qpieri"]}]}
{"id": "C46", "title": "Products in types B, C, D are homogeneous and integral", "statement": "On IG and OG, every term q^d S[mu] of mult(S[lam],S[nu]) or qmult(S[lam],S[nu]) satisfies |mu| + d*degree_q() = |lam| + |nu|, and its coefficient is an integer (although the Pieri rules divide by powers of two and Giambelli subtracts). Exception: the quantum ring of OG(N/2-1,N), N even, which has two quantum parameters; there qmult raises on some products (C27_two_parameters_refuted) and qpieri on some classes (C42_refuted).", "quantifier": "every IG/OG with m >= 1, every pair of classes (quantum: all but OG(N/2-1,N))", "why_tests_cant": "ranges over all classes of all Grassmannians", "anchors": [{"file": "schubertpy/abstract_grassmannian.py", "symbols": ["mult", "qmult", "toS", "qtoS", "giambelli_rec_inner", "act_lc", "pieri", "qpieri"]}]}
{"id": "C47", "title": "Quantum product specialises to the classical product at q=0 in types B, C, D", "statement": "On IG and OG, the q-free part of qmult(a,b) is mult(a,b) for q-free linear combinations a, b, and the q-free part of qtoS(a) is toS(a) for q-free polynomials in classes. Exception: the quantum ring of OG(N/2-1,N), N even, which has two quantum parameters; there qmult raises on some products (C27_two_parameters_refuted) and qpieri on some classes (C42_refuted).", "quantifier": "every IG/OG with m >= 1, all q-free arguments (quantum: all but OG(N/2-1,N))", "why_tests_cant": "two different recursions must agree for every input", "anchors": [{"file": "schubertpy/abstract_grassmannian.py", "symbols": ["mult", "qmult", "toS", "qtoS", "giambelli_rec_inner", "act_lc", "pieri", "qpieri"]}]}
{"id": "C48", "title": "Poincare duality on every Grassmannian, classical and quantum", "statement": "On Gr, IG and OG (m >= 1): the coefficient of the point class in mult(S[lam],S[mu]) and in qmult(S[lam],S[mu]) is 1 if dualize(S[lam]) = S[mu] and 0 otherwise, and no term q^d [point] with d >= 1 occurs in qmult(S[lam],S[mu]).", "quantifier": "every Grassmannian (qmult: except OG(N/2-1,N), which has two parameters, see C85), every pair of classes", "why_tests_cant": "ranges over all pairs of classes of all Grassmannians, and ties three independent computations: multiplication, index sets, the point class", "anchors": [{"file": "schubertpy/abstract_grassmannian.py", "symbols": ["mult", "qmult", "dualize", "pieri", "qpieri"]}]}
{"id": "C49", "title": "Structure constants are symmetric under duality", "statement": "On Gr, IG and OG (m >= 1): the coefficient of q^e S[nu] in the (quantum) product S[lam]*S[mu] equals the coefficient of q^e S[mu]^dual in S[lam]*S[nu]^dual, where ^dual is dualize; so the numbers (lam,mu,nu^dual) of degree e are symmetric in all three arguments.", "quantifier": "every Grassmannian (qmult: except OG(N/2-1,N), which has two parameters, see C85), every triple of classes, every power of q", "why_tests_cant": "ranges over all triples of classes of all Grassmannians", "anchors": [{"file": "schubertpy/abstract_grassmannian.py", "symbols": ["mult", "qmult", "dualize", "pieri", "qpieri"]}]}
{"id": "C50", "title": "The Littlewood-Richardson rule", "statement": "On Gr(m,n), m >= 1: mult(S[lam],S[mu]) contains no q, only classes of the m x (n-m) rectangle, and the coefficient of S[nu] is the number of Littlewood-Richardson tableaux: semistandard tableaux of shape lam with entries 1..m such that adding the content of the columns c, c+1, ... to mu gives a partition for every c, and gives nu for c = 0. In particular all coefficients are non-negative integers.", "quantifier": "every m >= 1, every n, every triple of classes lam, mu, nu", "why_tests_cant": "ranges over all triples of classes of all Grassmannians; mult goes through Giambelli determinants and repeated Pieri operators with cancellation, nothing in the code counts tableaux", "anchors": [{"file": "schubertpy/abstract_grassmannian.py", "symbols": ["mult", "act", "giambelli", "pieri"]}]}
{"id": "C51", "title": "The rim hook rule for quantum products", "statement": "On Gr(m,n), m >= 1: for every K >= 2(n-m), the coefficient of q^d S[nu] in qmult(S[lam],S[mu]) is the sum, over the terms S[ka] of mult(S[lam],S[mu]) in Gr(m,m+K) whose partition ka is reduced to nu by removing d rim hooks of n boxes that start in the first row until it fits into the m x (n-m) rectangle, of the coefficient times the product of the signs (-1)^(m-h_i), h_i the number of rows of the i-th hook.", "quantifier": "every Gr(m,n) with m >= 1, every K >= 2(n-m), every pair of classes, every d and nu", "why_tests_cant": "compares products on two different Grassmannians, for all sizes and all classes", "anchors": [{"file": "schubertpy/abstract_grassmannian.py", "symbols": ["mult", "qmult", "qpieri"]}, {"file": "schubertpy/grassmannian.py", "symbols": ["qmult_rh"]}]}
{"id": "C52", "title": "Products with columns: the vertical Pieri rule", "statement": "On Gr(m,n), 1 <= m < n, 1 <= j <= m: mult(S[1,...,1],S[lam]) (j ones) is the sum, with coefficients 1, of the classes S[mu] of the m x (n-m) rectangle such that mu arises from lam by adding j boxes, at most one to each row. qmult of the two has in addition the terms q*S[mu] such that the first row of lam has length n-m, and mu arises from lam by removing this row and at most one box from each other row, n-j boxes in all.", "quantifier": "every Gr(m,n) with 1 <= m < n, every class lam, every 1 <= j <= m", "why_tests_cant": "ranges over all Grassmannians and all classes; the code has a Pieri rule for rows only, the classes of columns go through Giambelli determinants", "anchors": [{"file": "schubertpy/abstract_grassmannian.py", "symbols": ["mult", "qmult", "giambelli", "pieri", "qpieri"]}]}
{"id": "C53", "title": "Conjugation symmetry between Gr(m,n) and Gr(n-m,n)", "statement": "For 1 <= m < n and classes lam, mu, nu of Gr(m,n): the coefficient of q^d S[nu] in qmult(S[lam],S[mu]) on Gr(m,n) equals the coefficient of q^d S[nu'] in qmult(S[lam'],S[mu']) on Gr(n-m,n), where ' denotes the conjugate partition; likewise for mult.", "quantifier": "every 1 <= m < n, every triple of classes, every power of q", "why_tests_cant": "compares two different rings, for all sizes and all classes; rows and columns are treated differently by the code", "anchors": [{"file": "schubertpy/abstract_grassmannian.py", "symbols": ["mult", "qmult", "pieri", "qpieri"]}]}
{"id": "C54", "title": "Products with a full row or a full column are single terms", "statement": "On Gr(m,n), 1 <= m < n: qmult(S[n-m],S[lam]) is S[n-m,lam] if lam has fewer than m rows, and otherwise q*S[mu] with one box removed from each row of lam. qmult(S[1,...,1],S[lam]) (m ones) is S[mu] with one box added to each of the m rows if the first row of lam is shorter than n-m, and otherwise q*S[lam without its first row].", "quantifier": "every Gr(m,n) with 1 <= m < n, every class lam", "why_tests_cant": "ranges over all Grassmannians and all classes", "anchors": [{"file": "schubertpy/abstract_grassmannian.py", "symbols": ["qmult", "qpieri"]}]}
{"id": "C55", "title": "Mixed arithmetic of classes, linear combinations, expressions and numbers", "statement": "Whenever a+b, a-b, a*b or a**n returns, where a and b are any mix of Schur objects, LinearCombination objects, sympy expressions and numbers, the result stands for the sum, difference, product or power of what the operands stand for. a+b and a*b return except when a is a LinearCombination and b a Schur object, or a is a Schur object and b a LinearCombination whose expression is falsy (zero); a-b returns exactly when neither operand is a Schur object. The result is a LinearCombination exactly when no operand is a Schur object and (for + and *) one operand is a LinearCombination, (for -) both are, (for **) the base is.", "quantifier": "every pair of operands of every mix of kinds, every expression tree, every way sympy may decide the truth value of an expression", "why_tests_cant": "ranges over all expressions and all combinations of operand kinds, through Python's reflected-operator dispatch", "anchors": [{"file": "schubertpy/lc.py", "symbols": ["LinearCombination.__add__", "LinearCombination.__sub__", "LinearCombination.__rsub__", "LinearCombination.__mul__", "LinearCombination.__pow__"]}, {"file": "schubertpy/schur.py", "symbols": ["Schur.__add__", "Schur.__mul__", "Schur.__pow__"]}]}
{"id": "C56", "title": "Equality, hashing and order of classes; lists made from sets are deterministic", "statement": "Schur objects are equal exactly when their lists are; equal objects have equal hashes; on lists of integers < is the lexicographic order, a strict total order, and never raises. unique_schur_list returns the distinct classes in strictly increasing order, the same list whatever order the set yields its elements in.", "quantifier": "every pair or triple of classes, every hash function of strings (Python randomises it per process), every iteration order of the set", "why_tests_cant": "the iteration order of a set of objects hashed by strings changes from process to process; one run shows one order", "anchors": [{"file": "schubertpy/schur.py", "symbols": ["Schur.__eq__", "Schur.__lt__", "Schur.__hash__", "unique_schur_list"]}]}
{"id": "C57", "title": "Drawings show the diagram", "statement": "latex() and latex_standalone() contain exactly one node command for each box of the diagram, at (5x mm, -5y mm), and no other, inside one tikzpicture environment (and, for latex_standalone(), one document environment) that is opened and closed; plot_partition() draws exactly one unit square per box, at (x,-y), inside the limits of the axes; each of the pictures has exactly one label, and the numbers in it are the parts of the partition in order (also in the title that yd() prints); print_partition() and yd() print for each part one line with that many boxes.", "quantifier": "every list of integers (nonnegative for the printed lines)", "why_tests_cant": "ranges over all partitions of all sizes; a golden file shows one picture", "anchors": [{"file": "schubertpy/schur.py", "symbols": ["latex", "latex_standalone", "_generate_tikzpicture", "plot_partition", "print_partition"]}, {"file": "schubertpy/utils/mix.py", "symbols": ["yd"]}]}
{"id": "C58", "title": "Exchanging the types is an automorphism", "statement": "On OG(m,N), N even, type_swap(a*b) = type_swap(a)*type_swap(b) for mult, and for qmult when m is not N/2-1; type_swap turns the Pieri operator of index N/2-m into that of index -(N/2-m), back, and leaves the others.", "quantifier": "every even N >= 4, every m with 1 <= m <= N/2, all linear combinations of classes over Q[q]", "why_tests_cant": "ranges over all spaces and all pairs of linear combinations", "anchors": [{"file": "schubertpy/orthogonal_grassmannian.py", "symbols": ["type_swap", "pieriD_inner", "qpieriD_inner"]}, {"file": "schubertpy/abstract_grassmannian.py", "symbols": ["mult", "qmult"]}]}
{"id": "C59", "title": "The two models of the spinor variety agree", "statement": "OG(n,2n+1) and OG(n+1,2n+2) have the same classes, and mult and qmult return the same products in both.", "quantifier": "every n >= 1, all linear combinations of classes over Q[q]", "why_tests_cant": "compares two implementations (types B and D) on all inputs of all sizes", "anchors": [{"file": "schubertpy/orthogonal_grassmannian.py", "symbols": ["OrthogonalGrassmannian", "pieriB_inner", "qpieriB_inner", "pieriD_inner", "qpieriD_inner"]}, {"file": "schubertpy/abstract_grassmannian.py", "symbols": ["mult", "qmult"]}]}
{"id": "C60", "title": "IG(m,2n) and OG(m,2n+1) agree up to powers of 2", "statement": "IG(m,2n) and OG(m,2n+1) have the same classes. If long(lam) is the number of rows of lam longer than n-m, the coefficient of S[nu] in mult(S[lam],S[mu]) on IG(m,2n), times 2^long(nu), equals the one on OG(m,2n+1) times 2^(long(lam)+long(mu)).", "quantifier": "every n and 1 <= m <= n, all classes lam, mu, every nu", "why_tests_cant": "compares two implementations (types C and B) on all inputs of all sizes", "anchors": [{"file": "schubertpy/isotropic_grassmannian.py", "symbols": ["IsotropicGrassmannian", "pieriC_inner"]}, {"file": "schubertpy/orthogonal_grassmannian.py", "symbols": ["OrthogonalGrassmannian", "pieriB_inner"]}, {"file": "schubertpy/abstract_grassmannian.py", "symbols": ["mult"]}]}
{"id": "C61", "title": "schub_classes of IG and OG has the expected length", "statement": "The number of classes listed by schub_classes() is 2^m * C(N//2, m) for IG(m,N) and for OG(m,N) with m < N/2 or N odd, and 2^(m-1) for OG(N/2,N), N even (one component).", "quantifier": "every IG(m,2n) and OG(m,N) with m <= N/2", "why_tests_cant": "a closed formula for the output length of an iteration for all sizes", "anchors": [{"file": "schubertpy/isotropic_grassmannian.py", "symbols": ["schub_classes"]}, {"file": "schubertpy/orthogonal_grassmannian.py", "symbols": ["schub_classes"]}, {"file": "schubertpy/utils/kstrict.py", "symbols": ["all_kstrict"]}]}
{"id": "C62", "title": "giambelli and qgiambelli in type A are the Jacobi-Trudi determinant", "statement": "On Gr(m,n), giambelli(S[lam]) and qgiambelli(S[lam]) both equal, as polynomials in the special classes S[1..n-m], the determinant of the matrix with entries S[lam_i + j - i] (S[0] = 1, zero outside 0..n-m). In particular the quantum and the classical Giambelli formulas coincide.", "quantifier": "every Gr(m,n) with m >= 1, every partition lam in the rectangle", "why_tests_cant": "an identity between a recursive algorithm and a closed formula for all shapes", "anchors": [{"file": "schubertpy/abstract_grassmannian.py", "symbols": ["giambelli", "qgiambelli", "giambelli_rec_inner"]}, {"file": "schubertpy/grassmannian.py", "symbols": ["Grassmannian"]}]}
{"id": "C63", "title": "The defining relations of the ring of Gr(m,n) hold", "statement": "On Gr(m,n) let E_d be the d x d determinant det(S[1+j-i]) in the special classes (S[0]=1, zero outside 0..n-m). toS and qtoS of E_d are S[1^d] for d <= m and 0 for m < d < n; for d = n toS gives 0 and qtoS gives (-1)^(n-m-1) q.", "quantifier": "every Gr(m,n) with 1 <= m < n, every 0 <= d <= n", "why_tests_cant": "identities between determinants of every size in every Grassmannian", "anchors": [{"file": "schubertpy/abstract_grassmannian.py", "symbols": ["toS", "qtoS", "giambelli", "qgiambelli", "act", "qact"]}, {"file": "schubertpy/grassmannian.py", "symbols": ["Grassmannian"]}]}
{"id": "C64", "title": "Printed linear combinations can be read back", "statement": "LinearCombination(str(x)) hands sympy's parser exactly the text of x's expression; every class in a printed text appears as S[a,b,...], every S[a,b,...] in an input text is read as the symbol of that class, and ^ is read as the power operator.", "quantifier": "every text sympy can print for an expression in classes and q; every class; every surrounding text", "why_tests_cant": "all texts of all lengths", "anchors": [{"file": "schubertpy/lc.py", "symbols": ["LinearCombination.__init__", "LinearCombination.__str__"]}, {"file": "schubertpy/schur.py", "symbols": ["translate_schur"]}, {"file": "schubertpy/utils/const.py", "symbols": ["ftable", "btable"]}]}
{"id": "C65", "title": "len, is_operator and list_schur_oprands describe the expression", "statement": "is_operator('+'), ('*'), ('^') say whether the expression is a sum, a product, a power, any other operator raises ValueError; list_schur_oprands lists exactly the classes that occur; len of a sum of multiples of classes is the number of pairs schur_expansion returns. (For one multiple such as 3*S[1] len is 2: refuted.)", "quantifier": "every expression tree of any depth, every operator string", "why_tests_cant": "recursion over arbitrary expressions", "anchors": [{"file": "schubertpy/lc.py", "symbols": ["LinearCombination.__len__", "is_operator", "list_schur_oprands", "schur_expansion"]}]}
{"id": "C66", "title": "The text of a Grassmannian identifies it", "statement": "str() of two Grassmannians is the same only if type, k and n are the same, it contains the constructor call Gr(m,n), IG(m,n) or OG(m,n) that made the object, and it ends with the degree of q, which is n on Gr(m,n), N+1-m on IG(m,N), N-1-m on OG(m,N) with m < N/2 (rounded down), and the even one of N-1 and N-2 for m = N/2.", "quantifier": "all Grassmannian objects of all types and sizes", "why_tests_cant": "injectivity over infinitely many objects", "anchors": [{"file": "schubertpy/grassmannian.py", "symbols": ["__str__"]}, {"file": "schubertpy/isotropic_grassmannian.py", "symbols": ["__str__"]}, {"file": "schubertpy/orthogonal_grassmannian.py", "symbols": ["__str__"]}]}
{"id": "C67", "title": "Quadratic relations between the special classes of isotropic Grassmannians", "statement": "Write s_i for S[i], s_0 = 1. On IG(m,N), with k = N/2 - m and k < r <= N - m, toS sends s_r^2 - 2 s_{r+1} s_{r-1} + 2 s_{r+2} s_{r-2} - ... to 0, and qtoS sends it to (-1)^(N-m-r) q s_{2r-(N-m+1)} (0 if 2r <= N - m). On OG(m,N) with N odd, and k < r <= N - 1 - m, the same expression with the weights 2 replaced by 1 from s_{2r-k} s_k on goes to 0 under toS, and under qtoS to 0 for r < N - 1 - m and to q (m = N/2) or q^2 (m < N/2) for r = N - 1 - m. On OG(m,N) with N even the same holds with S[k] + S[k,0] in place of s_k, and S[k] S[k,0] - s_{k+1} s_{k-1} + s_{k+2} s_{k-2} - ... goes to 0 under both (under qtoS for m != N/2 - 1, where there are two quantum parameters).", "quantifier": "all IG(m,N), all OG(m,N), m >= 1, all degrees r in the range", "why_tests_cant": "the relations hold for infinitely many Grassmannians and degrees; each involves arbitrarily many products", "anchors": [{"file": "schubertpy/abstract_grassmannian.py", "symbols": ["toS", "qtoS"]}, {"file": "schubertpy/isotropic_grassmannian.py", "symbols": ["pieriC_inner", "qpieriC_inner"]}, {"file": "schubertpy/orthogonal_grassmannian.py", "symbols": ["pieriB_inner", "qpieriB_inner", "pieriD_inner", "qpieriD_inner"]}]}
{"id": "C68", "title": "Products with the special class of the largest degree on OG(m,N)", "statement": "On OG(m,N), with t = N - 1 - m, mult(S[t], S[lam]) is S[t,lam] if lam has fewer than m rows and its first row is shorter than t, and 0 otherwise; qmult is S[t,lam] in the first case, q^2 S[lam without its first row] (q for m = N/2) if the first row has length t, and otherwise q S[lam], where for even N the two types are exchanged.", "quantifier": "all OG(m,N) with 1 <= m <= N/2 (N >= 4 if even; the quantum part for even N without m = N/2 - 1), all classes", "why_tests_cant": "infinitely many Grassmannians and classes", "anchors": [{"file": "schubertpy/abstract_grassmannian.py", "symbols": ["mult", "qmult"]}, {"file": "schubertpy/orthogonal_grassmannian.py", "symbols": ["qpieriB_inner", "qpieriD_inner"]}]}
{"id": "C69", "title": "Giambelli polynomials of the classes with two rows of isotropic Grassmannians", "statement": "Write s_i for S[i], s_0 = 1, s_i = 0 if i is too large, and k = N/2 - m. On IG(m,N), giambelli(S[a,b]) is s_a s_b - 2 s_{a+1} s_{b-1} + 2 s_{a+2} s_{b-2} - ... if a + b > 2k + 1 and s_a s_b - s_{a+1} s_{b-1} otherwise; qgiambelli(S[a,b]) is the same if a + b <= N - m and has the further term (-1)^(N-m+1-a) q s_{a+b-(N-m+1)} otherwise. On OG(m,N) with N odd, giambelli(S[a,b]) and qgiambelli(S[a,b]) are both the first expression after replacing s_i by 2 s_i for i > k and dividing by 2 for each of a, b that is larger than k. On OG(m,N) with N even there are two special classes of degree k > 0, S[k] and S[k,0]. If neither a nor b is k, giambelli(S[a,b]) is s_a s_b + w_1 s_{a+1} s_{b-1} + ... with the weights 1, -2, 2, ... if a + b > 2k and 1, -1, 0, ... otherwise, with the same replacements and with s_k replaced by S[k] + S[k,0]. If exactly one of them is k, giambelli of the class of either type is s_a s_b - s_{a+1} s_{b-1} + s_{a+2} s_{b-2} - ... if a > k and s_a s_b - s_{a+1} s_{b-1} if b < k, where s_k is the special class of the same type. If both are k it is s_k s_k - s_{k+2} s_{k-2} + s_{k+3} s_{k-3} - ... . qgiambelli gives the same if m is not N/2 - 1.", "quantifier": "all IG(m,N), all OG(m,N) with m <= N/2, all classes with two rows of either type (m <> N/2 - 1 for qgiambelli and N even)", "why_tests_cant": "infinitely many Grassmannians and classes; the polynomials have arbitrarily many terms and come out of a recursion of unbounded depth", "anchors": [{"file": "schubertpy/abstract_grassmannian.py", "symbols": ["giambelli", "qgiambelli", "giambelli_rec_inner"]}, {"file": "schubertpy/isotropic_grassmannian.py", "symbols": ["pieriC_inner", "qpieriC_inner"]}, {"file": "schubertpy/orthogonal_grassmannian.py", "symbols": ["pieriB_inner", "qpieriB_inner", "pieriD_inner", "qpieriD_inner"]}]}
{"id": "C70", "title": "Products of special classes are given by Kostka numbers", "statement": "On Gr(m,n), toS(S[i_1]*...*S[i_r]) for 1 <= i_j <= n-m is the sum of K*S[lam] over the classes lam, where K is the number of semistandard tableaux of shape lam in which each j occurs i_j times. K is also the coefficient of x_1^i_1...x_r^i_r in SchurPol(r, lam).", "quantifier": "every Gr(m,n) with m >= 1, every list of special classes, every class lam", "why_tests_cant": "quantified over all Grassmannians and all numbers of factors; relates two functions computed by unrelated algorithms", "anchors": [{"file": "schubertpy/abstract_grassmannian.py", "symbols": ["toS", "act"]}, {"file": "schubertpy/utils/mix.py", "symbols": ["SchurPol"]}]}
{"id": "C71", "title": "Which classical products are zero", "statement": "On every Grassmannian, mult(S[lam], S[mu]) is different from 0 exactly if the class dualize(S[mu]) is the end of a chain of classes that starts with S[lam] and in which each class occurs in pieri(i, previous class) for some special degree i. On Gr(m,n) this says that lam_j + mu_(m+1-j) <= n-m for all j. On IG(n,2n), OG(n,2n+1) and OG(n,2n) it says that the diagram of lam is contained in that of the dual class of mu.", "quantifier": "every Gr(m,n), IG(m,N), OG(m,N) and all pairs of classes", "why_tests_cant": "relates products of arbitrary classes to chains of arbitrary length; a sign error or a missing term may show only for large classes", "anchors": [{"file": "schubertpy/abstract_grassmannian.py", "symbols": ["mult", "pieri", "dualize"]}, {"file": "schubertpy/grassmannian.py", "symbols": ["_pieri"]}, {"file": "schubertpy/isotropic_grassmannian.py", "symbols": ["_pieri"]}, {"file": "schubertpy/orthogonal_grassmannian.py", "symbols": ["_pieri"]}]}
{"id": "C72", "title": "All products on projective spaces and quadrics", "statement": "On Gr(1,N) and on IG(1,N) (both are the projective space of dimension N-1) mult of the classes of codimension a and b is the class of codimension a+b, or 0 if N <= a+b; qmult is then q times the class of codimension a+b-N. On OG(1,N) (the quadric of dimension D = N-2) mult and qmult of any two classes are given by explicit formulas: one class or the sum of the two middle classes, with coefficient 1 or 2, times 1, q or q^2, or the point class plus q; the product of two middle classes is the point class or q, depending on their types and on the parity of D/2.", "quantifier": "every N (N >= 5 for quadrics), all pairs of classes", "why_tests_cant": "all dimensions; the coefficient 2, the choice between the two middle classes and the power of q change at boundaries that depend on N", "anchors": [{"file": "schubertpy/abstract_grassmannian.py", "symbols": ["mult", "qmult", "pieri", "qpieri"]}, {"file": "schubertpy/grassmannian.py", "symbols": ["pieriA_inner", "qpieriA_inner"]}, {"file": "schubertpy/isotropic_grassmannian.py", "symbols": ["pieriC_inner", "qpieriC_inner"]}, {"file": "schubertpy/orthogonal_grassmannian.py", "symbols": ["pieriB_inner", "qpieriB_inner", "pieriD_inner", "qpieriD_inner"]}]}
{"id": "C73", "title": "Rectangles of full width or height act by rotations", "statement": "On Gr(m,n), qmult(S[(n-m)^j], S[lam]) and qmult(S[j^m], S[lam]) are single terms q^d*S[mu]: the index set of mu (part2index) is the index set of lam rotated by j or -j modulo n, and d counts the elements of it that wrap around (do not, for rows). Hence rotating lam and nu by the same rectangle permutes the coefficients of qmult(S[lam], S[mu]), up to a power of q.", "quantifier": "every Gr(m,n) with 1 <= m < n, every rectangle of full width or height, all classes", "why_tests_cant": "quantified over all Grassmannians and classes; relates products with part2index", "anchors": [{"file": "schubertpy/abstract_grassmannian.py", "symbols": ["qmult"]}, {"file": "schubertpy/grassmannian.py", "symbols": ["part2index", "_qpieri"]}]}
{"id": "C74", "title": "The functions of the module qcalc agree with the methods, or raise", "statement": "When the module variables of qcalc are those of a Grassmannian, its functions pieri, qpieri, act, qact, part2index, index2part, part2pair, pair2part and schub_type return what the methods return. With the initial module variables pieri, qpieri, part2pair raise on every expression with a class, act and qact on every left factor with a class, and part2index, index2part, schub_type always. giambelli, qgiambelli, mult, toS, qtoS raise NameError in every state.", "quantifier": "every state of the module variables, every expression", "why_tests_cant": "quantified over all Grassmannians and all expressions; the functions duplicate the methods", "anchors": [{"file": "schubertpy/qcalc.py", "symbols": ["pieri", "qpieri", "act", "qact", "act_lc", "spec2num", "part2index", "index2part", "part2pair", "pair2part", "schub_type", "giambelli", "mult", "toS"]}]}
{"id": "C75", "title": "Quantum products are never zero", "statement": "qmult(S[lam], S[mu]) is different from 0 for all classes, and every class is the end of a chain of terms of qpieri products that starts with any given class.", "quantifier": "every Gr(m,n), IG(m,N), OG(m,N) except the OG(N/2-1,N), which have two quantum parameters (see C86); all pairs of classes", "why_tests_cant": "quantified over all spaces and classes", "anchors": [{"file": "schubertpy/abstract_grassmannian.py", "symbols": ["qmult", "qpieri"]}, {"file": "schubertpy/grassmannian.py", "symbols": ["_qpieri"]}, {"file": "schubertpy/isotropic_grassmannian.py", "symbols": ["_qpieri"]}, {"file": "schubertpy/orthogonal_grassmannian.py", "symbols": ["_qpieri"]}]}
{"id": "C76", "title": "Acting with special classes is a module structure", "statement": "act(e, c) and qact(e, c), for a polynomial e in the special classes (and q) and a linear combination c of classes, return a linear combination of classes; they are additive and Q-linear in e and in c, act(1, c) = c, act(e*f, c) = act(e, act(f, c)), act(q, c) = q*c; a special class acts as its Pieri operator; and equal arguments written differently give equal results.", "quantifier": "every Gr(m,n), IG(m,N), OG(m,N), every polynomial in special classes and every linear combination of classes; qact on OG(N/2-1,N) for N <= 16, with coefficients in Q[q,q1,q2]", "why_tests_cant": "act_lc eliminates the variables of e one after another in the order of their names and recurses; independence of that order rests on the commutation of all Pieri operators", "anchors": [{"file": "schubertpy/abstract_grassmannian.py", "symbols": ["act", "qact", "act_lc", "spec2num"]}]}
{"id": "C77", "title": "Products on the spaces with two quantum parameters", "statement": "On OG(N/2-1,N), N even and at most 16: the quantum Pieri operators commute; qgiambelli returns on every linear combination of classes over Q[q,q1,q2]; qmult(a, b) returns a linear combination of classes if neither q1 nor q2 occurs in a, and raises ValueError otherwise; where the products are defined they are commutative, associative, additive, linear over the parameters and have the unit S[]; and qmult of a special class is qpieri.", "quantifier": "every OG(N/2-1,N) with N <= 16 (beyond that qpieri itself is wrong, C42), all linear combinations over Q[q,q1,q2]", "why_tests_cant": "ring laws for all elements; the error depends on which parameters survive in the argument", "anchors": [{"file": "schubertpy/abstract_grassmannian.py", "symbols": ["qmult", "qact", "qgiambelli", "act_lc", "spec2num"]}, {"file": "schubertpy/orthogonal_grassmannian.py", "symbols": ["qpieriD_inner"]}]}
{"id": "C78", "title": "The quantum Giambelli formula is the classical one on Gr and OG", "statement": "qgiambelli(a) and giambelli(a) are the same polynomial on Gr(m,n) and OG(m,N), for every polynomial a in the classes and the parameters. On IG(m,N) they can differ.", "quantifier": "every Gr(m,n), every OG(m,N) with N >= 3 and m >= 1 (also N > 16 with two parameters), every polynomial in classes", "why_tests_cant": "all classes of all spaces", "anchors": [{"file": "schubertpy/abstract_grassmannian.py", "symbols": ["giambelli", "qgiambelli", "giambelli_rec", "giambelli_rec_inner"]}, {"file": "schubertpy/orthogonal_grassmannian.py", "symbols": ["qpieriB_inner", "qpieriD_inner"]}]}
{"id": "C79", "title": "Memoisation is transparent for threads", "statement": "When several threads call the memoised functions (the Pieri functions and giambelli_rec_inner) at the same time, sharing the memo tables, every thread gets for each of its calls the result of the function without a memo table, in the order of its calls. No thread has to wait for another one, and the number of steps a thread takes does not depend on what the other threads do.", "quantifier": "all numbers of threads, all lists of calls of each thread (with lists or tuples), all interleavings of look-ups, stores and evictions of table entries", "why_tests_cant": "the outcome depends on the schedule; a test sees the few interleavings that the interpreter happens to choose", "anchors": [{"file": "schubertpy/utils/hash.py", "symbols": ["hashable_lru_cache", "hashable_lru_cache_method"]}, {"file": "schubertpy/abstract_grassmannian.py", "symbols": ["giambelli_rec_inner"]}, {"file": "schubertpy/grassmannian.py", "symbols": ["pieriA_inner"]}, {"file": "schubertpy/testcases/brute_force/test_zclass_csv_threaded.py", "symbols": []}]}
{"id": "C80", "title": "Conversion of Schur functions from Sage", "statement": "sage_schur_to_schur(s[lam]) is the class S_lam for every partition lam; elements of any other Sage ring raise ValueError. An element that is not a single Schur function with coefficient 1 should be refused as well (it is not: refutation).", "quantifier": "all partitions, all elements", "why_tests_cant": "all partitions; the conversion goes through the printed form of the partition", "anchors": [{"file": "schubertsage/conversion.py", "symbols": ["sage_schur_to_schur"]}, {"file": "schubertpy/schur.py", "symbols": ["Schur.__init__", "toSchur"]}]}
{"id": "C81", "title": "Products without multiplicities on Gr(m,n)", "statement": "On Gr(m,n) every coefficient of mult(S[lam], S[mu]) and of qmult(S[lam], S[mu]) is 0 or 1 when m <= 2 or n-m <= 2, and for all m when lam (or its conjugate) is one row away from a rectangle: all rows but the first are equal, or all rows but the last, or all rows but one are full or empty.", "quantifier": "every Gr(m,n) with 1 <= m < n, every lam as described, every class mu", "why_tests_cant": "quantified over all Grassmannians and all pairs of classes; every coefficient of every product is bounded", "anchors": [{"file": "schubertpy/abstract_grassmannian.py", "symbols": ["mult", "qmult"]}, {"file": "schubertpy/grassmannian.py", "symbols": ["_pieri", "_qpieri"]}]}
{"id": "C82", "title": "Products with special classes are positive", "statement": "If e is a polynomial in the special classes and q, and c a linear combination of classes (with powers of q), both with positive integers as coefficients, then so is act(e, c), and qact(e, c); likewise mult and qmult of a special class and c. In particular every product of special classes with any class expands with positive integers.", "quantifier": "every Gr(m,n), IG(m,N), OG(m,N) (qact and qmult on OG(N/2-1,N): N <= 16), all polynomials in special classes and all linear combinations with positive integers as coefficients", "why_tests_cant": "quantified over all spaces, all polynomials and all linear combinations: products of any number of special classes", "anchors": [{"file": "schubertpy/qcalc.py", "symbols": ["act_lc"]}, {"file": "schubertpy/abstract_grassmannian.py", "symbols": ["act", "qact", "mult", "qmult"]}]}
{"id": "C83", "title": "Giambelli polynomials are homogeneous with integer coefficients", "statement": "For every class S_lam, giambelli(S_lam) and qgiambelli(S_lam) return a polynomial in which every coefficient is an integer and every monomial has degree |lam|, where a class S_mu counts |mu| and each q counts degree_q().", "quantifier": "every Gr(m,n) and IG(m,N) with m >= 1, every OG(m,N) with 1 <= m <= N/2 (including OG(N/2-1,N) of any size), and all classes", "why_tests_cant": "quantified over all spaces and classes; the recursion of giambelli subtracts polynomials with many terms", "anchors": [{"file": "schubertpy/abstract_grassmannian.py", "symbols": ["giambelli_rec", "giambelli_rec_inner", "giambelli", "qgiambelli", "degree_q"]}]}
{"id": "C84", "title": "Quantum products with two quantum parameters: degree and classical limit", "statement": "On OG(N/2-1,N), N even, N <= 16: qmult(S_lam, S_nu) has integer coefficients, contains q1 and q2 only (no q), and every term q1^i q2^j S_mu has |mu| + (i + j) degree_q() = |lam| + |nu|. For all linear combinations a, b of classes the part of qmult(a, b) without q1 and q2 is mult(a, b).", "quantifier": "every even N with 4 <= N <= 16, m = N/2 - 1, all classes and all linear combinations", "why_tests_cant": "all pairs of classes and all linear combinations with rational coefficients; the products go through giambelli and act", "anchors": [{"file": "schubertpy/qcalc.py", "symbols": ["act_lc"]}, {"file": "schubertpy/orthogonal_grassmannian.py", "symbols": ["qpieriD_inner"]}, {"file": "schubertpy/abstract_grassmannian.py", "symbols": ["giambelli_rec", "mult", "qmult", "degree_q"]}]}
{"id": "C85", "title": "Duality and symmetric constants with two quantum parameters", "statement": "On OG(N/2-1,N), N even, N <= 16: the coefficient of the point class in qmult(S_lam, S_mu) is 1 if dualize(S_lam) = S_mu and 0 otherwise, and no term q1^i q2^j [point] with i + j >= 1 occurs. The coefficient of q1^i q2^j S_nu in qmult(S_lam, S_mu) is that of q1^i q2^j S_mu^dual in qmult(S_lam, S_nu^dual).", "quantifier": "every even N with 4 <= N <= 16, m = N/2 - 1, all pairs and triples of classes, all powers of q1 and q2", "why_tests_cant": "all triples of classes; ties qpieri, giambelli, act and dualize together", "anchors": [{"file": "schubertpy/abstract_grassmannian.py", "symbols": ["qmult", "dualize", "giambelli_rec"]}, {"file": "schubertpy/qcalc.py", "symbols": ["act_lc"]}, {"file": "schubertpy/orthogonal_grassmannian.py", "symbols": ["qpieriD_inner"]}]}
{"id": "C86", "title": "Products with two quantum parameters are never zero", "statement": "On OG(N/2-1,N), N even, N <= 16: qmult(S_lam, S_mu) is different from 0 for all classes, and every class is the end of a chain of terms of qpieri products that starts with any given class.", "quantifier": "every even N with 4 <= N <= 16, m = N/2 - 1, all pairs of classes", "why_tests_cant": "all pairs of classes and chains of any length", "anchors": [{"file": "schubertpy/abstract_grassmannian.py", "symbols": ["qmult", "qpieri"]}, {"file": "schubertpy/orthogonal_grassmannian.py", "symbols": ["qpieriD_inner"]}]}
{"id": "C87", "title": "Stepping through partitions", "statement": "part_itr(mu) is the largest partition below mu in the lexicographic order among the partitions with as many rows, or None if mu is the least; itr_kstrict(mu, k) does the same for k-strict partitions (an empty list at the end); part_itr_between(mu, tau, lam) does the same for the partitions between tau and lam. part_gen(lam) lists, in decreasing order and once each, the partitions with at most len(lam) rows that are not above lam in the lexicographic order.", "quantifier": "every partition written with any number of rows (zeros allowed), every k >= 0, every pair of bounds tau <= lam", "why_tests_cant": "all partitions; the claim that nothing lies between two steps is about every list in between", "anchors": [{"file": "schubertpy/qcalc.py", "symbols": ["part_itr", "part_gen", "part_itr_between"]}, {"file": "schubertpy/utils/kstrict.py", "symbols": ["_itr_kstrict"]}]}
{"id": "C88", "title": "Heights of skew partitions", "statement": "skew_partition_height(lam, mu) is the number of rows in which mu has more boxes than lam; it raises ValueError exactly when lam has more rows than mu or a longer row. For the empty lam it is len(mu), which is that number when mu has no zero rows.", "quantifier": "all pairs of lists of integers", "why_tests_cant": "all pairs of lists", "anchors": [{"file": "schubertpy/partition.py", "symbols": ["skew_partition_height"]}]}
{"id": "C89", "title": "The quantum Giambelli formula of IG(m,N)", "statement": "For every polynomial a in the classes of IG(m,N) and q, qgiambelli(a) on IG(m,N) is giambelli(a) on IG(m+1,N+2) with q/2 in place of the special class S[N+1-m]; giambelli(a) on IG(m,N) is the same with 0 in place of it. In particular qgiambelli(S_lam) = giambelli(S_lam) for every class lam with fewer boxes than the degree of q.", "quantifier": "every IG(m,N) that can be constructed, every polynomial in its classes and q, every class", "why_tests_cant": "all spaces, all classes and all polynomials; relates the recursion of the quantum formula on one space to that of the classical formula on another", "anchors": [{"file": "schubertpy/abstract_grassmannian.py", "symbols": ["qgiambelli", "giambelli", "giambelli_rec_inner"]}, {"file": "schubertpy/isotropic_grassmannian.py", "symbols": ["qpieriC_inner", "pieriC_inner"]}]}
{"id": "C90", "title": "The smallest power of q in a quantum product", "statement": "In qmult(S_lam, S_mu) the smallest power of q that occurs is the smallest number of factors q in a chain of terms of qpieri products from S_lam to dualize(S_mu). On Gr(m,n) it is the least d with lam_{j+d} + mu_{m+1-j} <= n-m+d for all j <= m: lam without d rows and columns fits into the complement of mu. On IG(n,2n) it is the least d such that lam without its first d rows is contained in the dual of mu, on OG(n,2n+1) and OG(n,2n) without its first 2d rows.", "quantifier": "every Grassmannian with one quantum parameter, all pairs of classes; the explicit forms for every Gr(m,n) and every maximal isotropic Grassmannian", "why_tests_cant": "all spaces, all pairs of classes, chains of any length", "anchors": [{"file": "schubertpy/abstract_grassmannian.py", "symbols": ["qmult", "qpieri", "dualize", "giambelli_rec"]}, {"file": "schubertpy/grassmannian.py", "symbols": ["qpieriA_inner"]}, {"file": "schubertpy/orthogonal_grassmannian.py", "symbols": ["qpieriB_inner", "qpieriD_inner"]}, {"file": "schubertpy/isotropic_grassmannian.py", "symbols": ["qpieriC_inner"]}]}
{"id": "C91", "title": "The powers of q in a quantum product on Gr(m,n)", "statement": "q^d occurs in qmult(S_lam, S_mu) on Gr(m,n) exactly if d <= m, lam_j + mu_{d+1-j} >= n-m+d for 1 <= j <= d, and d <= lam_j + mu_{m+1+d-j} <= n-m+d for d < j <= m: the two shapes moved by d rows and columns fit together on the torus. The powers that occur are consecutive, and q^d occurs only if both shapes contain a d x d square.", "quantifier": "every Gr(m,n) with m >= 1, all pairs of classes, all d", "why_tests_cant": "all spaces, all pairs of classes", "anchors": [{"file": "schubertpy/abstract_grassmannian.py", "symbols": ["qmult", "giambelli_rec_inner"]}, {"file": "schubertpy/grassmannian.py", "symbols": ["qpieriA_inner"]}]}
{"id": "C92", "title": "Strange duality of quantum products on Gr(m,n)", "statement": "On Gr(m,n) with 1 <= m < n let qmult(S_point, S_mu) = q^e S_mu'. The coefficient of q^d S_nu in qmult(S_lam, S_mu) equals the coefficient of q^(e-d) S_mu' in qmult(S_lam*, S_nu), where S_lam* is dualize(S_lam), and both vanish for larger powers of q. Likewise, if qmult(S_point, S_nu*) = q^e S_nu', the coefficient of q^d S_nu in qmult(S_lam, S_mu) equals that of q^(e-d) S_nu' in qmult(S_lam*, S_mu*): q -> 1/q, S_lam -> S_lam* / S_point respects products.", "quantifier": "every Gr(m,n) with 1 <= m < n, all triples of classes, all powers of q", "why_tests_cant": "all spaces, all triples of classes", "anchors": [{"file": "schubertpy/abstract_grassmannian.py", "symbols": ["qmult", "giambelli_rec_inner"]}, {"file": "schubertpy/grassmannian.py", "symbols": ["point_class", "dualize", "qpieriA_inner"]}]}
{"id": "C93", "title": "All products on Gr(2,n)", "statement": "The classes of Gr(2,n), n >= 3, are the S[a,b] with n-2 >= a >= b >= 0. qmult(S[a,b], S[c,e]) is the sum, over the i with 0 <= i <= min(a-b, c-e) and (a-b)+(c-e)-i <= n-2, of one term for the shape with the rows x = a+c-i, y = b+e+i: S[x,y] if x <= n-2, q S[y-1,x-n+1] if x > n-2 and y < n, q^2 S[x-n,y-n] if y >= n. These terms are distinct, so all coefficients are 0 or 1. mult(S[a,b], S[c,e]) is the sum of those without q.", "quantifier": "every n >= 3, every pair of classes of Gr(2,n)", "why_tests_cant": "infinitely many n; the tests compare tables for a few small spaces", "anchors": [{"file": "schubertpy/abstract_grassmannian.py", "symbols": ["mult", "qmult", "giambelli_rec_inner"]}, {"file": "schubertpy/grassmannian.py", "symbols": ["pieriA_inner", "qpieriA_inner"]}]}
{"id": "C94", "title": "Quantum Kostka numbers", "statement": "On Gr(m,n), 1 <= m, with 1 <= i_j <= n-m: the coefficient of q^d S[nu] in qmult(S[i_1]*...*S[i_r], S[lam]) is the number of cylindric tableaux from lam to nu moved d steps along the diagonal with i_1, ..., i_r boxes: chains of m-row boundaries on the cylinder of circumference n, each obtained from the one before by adding i_j boxes, no two in one column. The same with m empty rows as the start is the expansion qtoS(S[i_1]*...*S[i_r]).", "quantifier": "every Gr(m,n), every class, every list of special classes, every d and nu", "why_tests_cant": "infinitely many spaces, lists and classes; the tests compare a few products", "anchors": [{"file": "schubertpy/abstract_grassmannian.py", "symbols": ["qmult", "qtoS", "qact"]}, {"file": "schubertpy/grassmannian.py", "symbols": ["qpieriA_inner"]}]}
{"id": "C95", "title": "Symbols that are not classes of the space", "statement": "On every Gr(m,n), IG(m,N) and OG(m,N): giambelli, toS, qgiambelli and qtoS of an expression that contains a symbol S[lam] which is not a class of the space raise, and so do mult and qmult with such an expression as left factor, whatever the right factor is; there is no recursion limit with which a value would be returned. The right factor and the index of pieri and qpieri are not checked: on Gr(2,4) mult(S[1],S[3]) = S[2,2], on Gr(3,6) pieri(-1,S[2,1]) = S[1,1], on Gr(2,3) qpieri(5,S[1,1]) = q (refuted).", "quantifier": "every Grassmannian, every expression with a symbol outside the space, every recursion depth", "why_tests_cant": "infinitely many symbols are outside each space; that the recursion never returns cannot be observed", "anchors": [{"file": "schubertpy/abstract_grassmannian.py", "symbols": ["giambelli", "toS", "mult", "qgiambelli", "qtoS", "qmult", "giambelli_rec_inner"]}, {"file": "schubertpy/grassmannian.py", "symbols": ["pieriA_inner", "qpieriA_inner"]}]}
{"id": "C96", "title": "Powers of S[1] and degrees", "statement": "toS(S[1]**N), the N-fold product of the class S[1], is a combination with integer coefficients of the classes S[nu] with |nu| = N. On Gr(m,n) the coefficient of S[nu] is N! times the product of all l_i - l_j (i<j) divided by the product of all l_i!, where l_i = nu_i + m - i (Frobenius). On OG(n,2n+1) and OG(n+1,2n+2) it is N! times the product of all (nu_i - nu_j)/(nu_i + nu_j) divided by the product of all nu_i! (Schur), and on IG(n,2n) it is 2**(N - number of rows of nu) times that number. In particular N = dim gives the degree of the space: 5 for Gr(2,5), 16 for IG(3,6), 12 for OG(5,10).", "quantifier": "every Gr(m,n) with 1 <= m < n, every IG(n,2n) with n >= 1, every OG(n,2n+1) and OG(n+1,2n+2) with n >= 1, every N and every class", "why_tests_cant": "the number of factors and the spaces are unbounded; the numbers grow factorially and the expansions pass through all classes", "anchors": [{"file": "schubertpy/abstract_grassmannian.py", "symbols": ["toS", "giambelli", "pieri"]}, {"file": "schubertpy/grassmannian.py", "symbols": ["pieriA_inner"]}, {"file": "schubertpy/isotropic_grassmannian.py", "symbols": ["pieriC_inner"]}, {"file": "schubertpy/orthogonal_grassmannian.py", "symbols": ["pieriB_inner", "pieriD_inner"]}]}
{"id": "C97", "title": "Rotation of the quantum ring of IG(m,2n)", "statement": "On IG(m,2n) the quantum product of S[n,n-1,...,n-m+1] with a class S[lam] is a single term q**d S[mu]: the index set of mu (part2index) is that of lam rotated by n in 1..2n, and d is the number of rows of lam longer than n-m. The square of S[n,n-1,...,n-m+1] is q**m. The rotation permutes the structure constants: if it takes lam to q**a lam' and nu to q**b nu', then the coefficient of q**d S[nu] in qmult(S[lam],S[mu]) equals the coefficient of q**(d+b-a) S[nu'] in qmult(S[lam'],S[mu]), a missing power of q on either side meaning a zero on the other.", "quantifier": "every IG(m,2n) with 1 <= m <= n, every classes lam, mu, nu and every degree", "why_tests_cant": "the spaces, the classes and the degrees are unbounded", "anchors": [{"file": "schubertpy/isotropic_grassmannian.py", "symbols": ["qpieri", "pieri", "part2index", "index2part"]}, {"file": "schubertpy/abstract_grassmannian.py", "symbols": ["qmult", "qgiambelli"]}]}
{"id": "C98", "title": "The special class of the greatest degree on OG(m,N)", "statement": "On OG(m,N) the quantum product of S[N-1-m] with a class S[lam] is a single term: if the first row of lam is N-1-m, the row is removed and the term carries q**2 (q**1 if m is the greatest possible); otherwise, if lam has all m rows, the term is q S[lam] for N odd, and q times the class of the other type for N even; otherwise the row is added, with no q. This permutes the structure constants of qmult: if it takes lam to q**a lam' and nu to q**b nu', then the coefficient of q**d S[nu] in qmult(S[lam],S[mu]) equals the coefficient of q**(d+b-a) S[nu'] in qmult(S[lam'],S[mu]), a missing power of q on either side meaning a zero on the other.", "quantifier": "every OG(m,2n+1) with 1 <= m <= n, every OG(m,2n) with 1 <= m < n-1, every classes lam, mu, nu and every degree", "why_tests_cant": "the spaces, the classes and the degrees are unbounded", "anchors": [{"file": "schubertpy/orthogonal_grassmannian.py", "symbols": ["qpieri", "qpieriB_inner", "qpieriD_inner", "pieriB_inner", "pieriD_inner"]}, {"file": "schubertpy/abstract_grassmannian.py", "symbols": ["qmult", "qgiambelli"]}]}
{"id": "C99", "title": "Rotation of the quantum ring of OG(m,2n)", "statement": "On OG(m,2n) with m < n-1 the quantum product of the class S[n-1,n-2,...,n-m] (the class of the second type, with the trailing 0, exactly if n-m is odd) with any class S[lam] is a single term q**d S[mu]. The index set part2index of mu is that of lam, with n and n+1 exchanged if n is odd, rotated by n in 1, ..., 2n; d is the number of indices of lam that are at most n after that exchange. This permutes the structure constants of qmult: if it takes lam to q**a lam' and nu to q**b nu', then the coefficient of q**d S[nu] in qmult(S[lam],S[mu]) equals the coefficient of q**(d+b-a) S[nu'] in qmult(S[lam'],S[mu]), a missing power of q on either side meaning a zero on the other.", "quantifier": "every OG(m,2n) with 1 <= m < n-1, every classes lam, mu, nu and every degree", "why_tests_cant": "the spaces, the classes and the degrees are unbounded", "anchors": [{"file": "schubertpy/orthogonal_grassmannian.py", "symbols": ["qpieri", "qpieriD_inner", "pieriD_inner", "part2indexD_inner"]}, {"file": "schubertpy/abstract_grassmannian.py", "symbols": ["qmult", "qgiambelli", "part2index"]}]}
{"id": "C100", "title": "The class of a point on the spinor varieties", "statement": "On OG(n,2n+1) and on OG(n+1,2n+2) the quantum product of the class of a point, S[n,n-1,...,1], with any class S[lam] is a single term q**d S[mu]: a number j < n is a row of mu exactly if n-j is not a row of lam, n is a row of mu exactly if lam has an even number of rows, and d is half the number of rows of lam, rounded up. This permutes the structure constants of qmult: if it takes lam to q**a lam' and nu to q**b nu', then the coefficient of q**d S[nu] in qmult(S[lam],S[mu]) equals the coefficient of q**(d+b-a) S[nu'] in qmult(S[lam'],S[mu]), a missing power of q on either side meaning a zero on the other.", "quantifier": "every n >= 1, every classes lam, mu, nu of OG(n,2n+1) or OG(n+1,2n+2) and every degree", "why_tests_cant": "the spaces, the classes and the degrees are unbounded", "anchors": [{"file": "schubertpy/orthogonal_grassmannian.py", "symbols": ["qpieri", "qpieriB_inner", "pieriB_inner", "qpieriD_inner", "pieriD_inner"]}, {"file": "schubertpy/abstract_grassmannian.py", "symbols": ["qmult", "qgiambelli", "point_class"]}]}
{"id": "C101", "title": "How deep the Giambelli recursion nests", "statement": "While giambelli or qgiambelli computes the polynomial of S[lam], no more than b+2 calls of the recursive function are open at the same time, where b is the number of boxes of lam below its first row. With any limit on the nesting that is at least b+2 the call returns, with the same polynomial as without a limit, so no class of these spaces ends in a RecursionError that a Python stack of this depth (times the fixed number of frames per call) would raise.", "quantifier": "every Gr(m,n), every IG(m,2n), every OG(m,N) (for qgiambelli not OG(N/2-1,N) with N even), every class lam and every limit", "why_tests_cant": "the spaces and the shapes are unbounded, and the terms that the recursion visits grow with them", "anchors": [{"file": "schubertpy/abstract_grassmannian.py", "symbols": ["giambelli", "qgiambelli", "giambelli_rec", "giambelli_rec_inner"]}, {"file": "schubertpy/isotropic_grassmannian.py", "symbols": ["pieri", "qpieri"]}, {"file": "schubertpy/orthogonal_grassmannian.py", "symbols": ["pieri", "qpieri"]}, {"file": "schubertpy/grassmannian.py", "symbols": ["pieri", "qpieri"]}]}
{"id": "C102", "title": "Pfaffian expansions on the maximal isotropic Grassmannians", "statement": "On IG(n,2n), OG(n,2n+1) and OG(n+1,2n+2), for mult and for qmult: a class with an odd number of rows is the alternating sum of the products of the classes of its single rows with the classes of the other rows; a class whose first row is a is the alternating sum, over the other rows b, of the products of S[a,b] with the class of the rows that remain (the expansion of a Pfaffian), to which for an odd total number of rows the product of S[a] with the other rows is added. In the quantum products all powers of q cancel in these sums.", "quantifier": "every n >= 1, every class and every first row", "why_tests_cant": "the spaces and the number of rows are unbounded, and the identity holds only through cancellation between products computed independently of each other", "anchors": [{"file": "schubertpy/abstract_grassmannian.py", "symbols": ["mult", "qmult"]}, {"file": "schubertpy/isotropic_grassmannian.py", "symbols": ["pieri", "qpieri"]}, {"file": "schubertpy/orthogonal_grassmannian.py", "symbols": ["pieri", "qpieri"]}]}
{"id": "C103", "title": "The Pfaffian formula on the maximal isotropic Grassmannians", "statement": "On IG(n,2n), OG(n,2n+1) and OG(n+1,2n+2), build for a class with rows l_1 > l_2 > ... the Pfaffian of the classes S[l_i,l_j], bordered by the classes S[l_i] when the number of rows is odd. This is a polynomial in classes of at most two rows. Multiplying it out with mult or with qmult gives S[l_1,l_2,...] exactly, so the Pfaffian needs no quantum correction.", "quantifier": "every n >= 1 and every class of the three families, with any number of rows", "why_tests_cant": "the Pfaffian of 2r rows has (2r-1)!! terms, each of degree r, and the number of rows is unbounded; the formula holds only through cancellation of all other terms", "anchors": [{"file": "schubertpy/abstract_grassmannian.py", "symbols": ["mult", "qmult"]}, {"file": "schubertpy/isotropic_grassmannian.py", "symbols": ["pieri", "qpieri"]}, {"file": "schubertpy/orthogonal_grassmannian.py", "symbols": ["pieri", "qpieri"]}, {"file": "schubertpy/abstract_grassmannian.py", "symbols": ["apply_lc", "giambelli_rec"]}]}
{"id": "C104", "title": "Generators and relations of the ring of Gr(m,n)", "statement": "Let p and p' be polynomials in the special classes S[1],...,S[n-m] and q. toS of both is the same exactly when p - p' is a combination, with polynomial coefficients, of the Jacobi-Trudi determinants of the columns with m+1,...,n rows; qtoS of both is the same exactly when p - p' is a combination of the determinants of the columns with m+1,...,n-1 rows and of the determinant of the column with n rows minus (-1)^(n-m-1) q. So besides these relations the rings computed by mult and qmult have none.", "quantifier": "every 1 <= m < n and every two polynomials in the special classes and q", "why_tests_cant": "the claim is about all polynomials of all degrees on all spaces; that two expressions differ is visible on examples, that equal values always come from the relations is not", "anchors": [{"file": "schubertpy/abstract_grassmannian.py", "symbols": ["toS", "qtoS", "act_lc"]}, {"file": "schubertpy/grassmannian.py", "symbols": ["pieri", "qpieri"]}]}
{"id": "C105", "title": "Generators and relations of the rings of the maximal isotropic Grassmannians", "statement": "Let p and p' be polynomials in the special classes S[1],...,S[n] and q. On IG(n,2n), OG(n,2n+1) and OG(n+1,2n+2), toS of both is the same exactly when p - p' is a combination, with polynomial coefficients, of the quadratic relations s_r^2 - 2 s_{r+1} s_{r-1} + 2 s_{r+2} s_{r-2} - ... = 0, r = 1,...,n (for OG the last coefficient is 1 or -1 instead of 2 or -2); qtoS of both is the same exactly when p - p' is a combination of the relations with q: on IG(n,2n) the right hand side is (-1)^(n-r) s_{2r-n-1} q for 2r > n, on both OG it is q for r = n. So besides these relations the rings computed by mult and qmult have none.", "quantifier": "every n >= 1 and every two polynomials in the special classes and q", "why_tests_cant": "the claim is about all polynomials of all degrees on all spaces; that two expressions differ is visible on examples, that equal values always come from the relations is not", "anchors": [{"file": "schubertpy/abstract_grassmannian.py", "symbols": ["toS", "qtoS", "act_lc"]}, {"file": "schubertpy/isotropic_grassmannian.py", "symbols": ["pieri", "qpieri"]}, {"file": "schubertpy/orthogonal_grassmannian.py", "symbols": ["pieri", "qpieri"]}]}
{"id": "C106", "title": "Classical products of IG(n+1,2n+2) from quantum products of IG(n,2n)", "statement": "The classes of IG(n+1,2n+2) are the classes S[a] of IG(n,2n) and the classes S[n+1,a]. With s = qmult(S[a],S[b]) on IG(n,2n), the product mult(S[a],S[b]) on IG(n+1,2n+2) has at S[nu] the coefficient of S[nu] in s, and at S[n+1,nu] twice the coefficient of q S[nu] in s. mult(S[n+1,a],S[b]) has at S[n+1,nu] the coefficient of S[nu] in s and nothing at S[nu]. mult(S[n+1,a],S[n+1,b]) is 0. So mult on the larger space and the terms of qmult without q and with q^1 on the smaller one determine each other.", "quantifier": "every n >= 1, every two classes a, b and every class nu of IG(n,2n)", "why_tests_cant": "relates the products of two spaces for all n and all pairs of classes; the code takes the quantum Pieri rule from the larger space one special class at a time, the claim is about products of arbitrary classes, which go through the Giambelli recursion of each space", "anchors": [{"file": "schubertpy/abstract_grassmannian.py", "symbols": ["mult", "qmult", "act_lc"]}, {"file": "schubertpy/isotropic_grassmannian.py", "symbols": ["pieriC_inner", "qpieriC_inner"]}]}
{"id": "C107", "title": "Quantum products of IG(m,N) from classical products of IG(m+1,N+2)", "statement": "Let a and b be classes of IG(m,N) with at most m+1 rows together, and t = N+1-m. With s = qmult(S[a],S[b]) on IG(m,N), the product mult(S[a],S[b]) on IG(m+1,N+2) has at S[nu] the coefficient of S[nu] in s and at S[t,nu] twice the coefficient of q S[nu] in s, for every class nu of IG(m,N); if a and b have at most m rows together it has no other terms. mult(S[t,a],S[b]) on IG(m+1,N+2) has only terms S[t,nu], with the coefficients of S[nu] in s, and mult(S[t,a],S[t,b]) is 0.", "quantifier": "every IG(m,N), every two classes with at most m+1 rows together (with more rows the coefficients differ, C107_rows_needed) and every class nu", "why_tests_cant": "relates the products of two spaces for all m, N and all such pairs of classes, through the Giambelli recursions of both spaces", "anchors": [{"file": "schubertpy/abstract_grassmannian.py", "symbols": ["mult", "qmult", "act_lc"]}, {"file": "schubertpy/isotropic_grassmannian.py", "symbols": ["pieriC_inner", "qpieriC_inner"]}]}
{"id": "C108", "title": "Products do not change when the space grows", "statement": "Every class of IG(m,N) is a class of IG(m+j,N+2j). For two classes a and b of IG(m,N), mult(S[a],S[b]) on IG(m+j,N+2j) has at every class nu of IG(m,N) the coefficient that mult(S[a],S[b]) has on IG(m,N). If a is a class of IG(m+j,N+2j) but not of IG(m,N), then mult(S[a],S[b]) on IG(m+j,N+2j) has coefficient 0 at every class of IG(m,N), for every class b. The same holds for OG(m,N) and OG(m+j,N+2j), N odd or even, and for Gr(m,n) and Gr(m+i,n+i+j).", "quantifier": "every Gr(m,n) with m >= 1, every IG(m,N) and every OG(m,N) with 1 <= m <= N/2, N >= 3, every i, j >= 0, all classes a, b and nu", "why_tests_cant": "relates the products of two spaces for all m, N, j and all pairs of classes, through the Giambelli recursions of both spaces", "anchors": [{"file": "schubertpy/abstract_grassmannian.py", "symbols": ["mult", "act_lc"]}, {"file": "schubertpy/isotropic_grassmannian.py", "symbols": ["pieriC_inner"]}, {"file": "schubertpy/orthogonal_grassmannian.py", "symbols": ["pieriB_inner", "pieriD_inner"]}, {"file": "schubertpy/grassmannian.py", "symbols": ["pieriA_inner"]}]}
{"id": "C109", "title": "Giambelli polynomials of a space come from those of any larger one", "statement": "Let a be a polynomial in the classes of IG(m,N). Then giambelli(a) on IG(m,N) is giambelli(a) on IG(m+j,N+2j) with the special classes S[x], x > N-m, replaced by 0. The same holds for OG(m,N) and OG(m+j,N+2j) with x > N-1-m. It holds for Gr(m,n) and Gr(m+i,n+i+j) with x > n-m, both for giambelli and for qgiambelli.", "quantifier": "every IG(m,N), every OG(m,2n+1) with 1 <= m <= n, every OG(m,2n+2) with 1 <= m <= n+1 and n >= 1, every Gr(m,n) with m >= 1, all i, j >= 0 and all polynomials a in the classes", "why_tests_cant": "relates the recursions of two spaces for all sizes and all classes; the recursion on the larger space visits classes that do not exist on the smaller one", "anchors": [{"file": "schubertpy/abstract_grassmannian.py", "symbols": ["giambelli", "qgiambelli", "giambelli_rec_inner"]}, {"file": "schubertpy/isotropic_grassmannian.py", "symbols": ["pieriC_inner"]}, {"file": "schubertpy/orthogonal_grassmannian.py", "symbols": ["pieriB_inner", "pieriD_inner"]}]}
{"id": "C110", "title": "Putting the classes outside a smaller space to 0 respects mult and toS", "statement": "Let r replace by 0 the classes of a space X' that are not classes of a smaller space X of the same family. For every polynomial a in the classes of X' and every combination b of them, mult(r(a),r(b)) on X is r(mult(a,b)) on X', and toS(r(a)) on X is r(toS(a)) on X'. Here (X,X') is (Gr(m,n),Gr(m+i,n+i+j)), (IG(m,N),IG(m+j,N+2j)) or (OG(m,N),OG(m+j,N+2j)); a class stays when its shape has at most m rows and at most n-m, N-m, N-1-m columns.", "quantifier": "every IG(m,N), every OG(m,2n+1) with 1 <= m <= n, every OG(m,2n+2) with 1 <= m <= n+1 and n >= 1, every Gr(m,n) with m >= 1, all i, j >= 0, all polynomials a in the classes (with q) and all linear combinations b of the classes", "why_tests_cant": "relates the products of two spaces for all sizes and all polynomials; C108 gives it for the coefficients of products of two classes only", "anchors": [{"file": "schubertpy/abstract_grassmannian.py", "symbols": ["mult", "toS", "act", "giambelli"]}, {"file": "schubertpy/grassmannian.py", "symbols": ["pieriA_inner"]}, {"file": "schubertpy/isotropic_grassmannian.py", "symbols": ["pieriC_inner"]}, {"file": "schubertpy/orthogonal_grassmannian.py", "symbols": ["pieriB_inner", "pieriD_inner"]}]}
{"id": "C111", "title": "Products with the classes pushed forward from a smaller space", "statement": "Let X' be a larger space of the family of X: (Gr(m,n),Gr(m+i,n+i+j)), (IG(m,N),IG(m+j,N+2j)) or (OG(m,N),OG(m+j,N+2j)). For every class S[l] of X there is exactly one class S[l'] of X', its partner, with dualize(S[l']) on X' equal to dualize(S[l]) on X. For every class S[a] of X, mult(S[a],S[l']) on X' is mult(S[a],S[l]) on X with every class replaced by its partner, and no other class occurs in it. If S[a] is a class of X' but not of X, all classes have coefficient 0 in mult(S[a],S[l']). On Gr(m,n) the partner has i full rows, and below them the rows of l, all longer by j.", "quantifier": "every IG(m,N) with m >= 1, every OG(m,2n+1) with 1 <= m <= n, every OG(m,2n+2) with 1 <= m <= n+1 and n >= 1, every Gr(m,n) with m >= 1, all i, j >= 0 and all classes", "why_tests_cant": "relates the products and the duals of two spaces for all sizes and all classes", "anchors": [{"file": "schubertpy/abstract_grassmannian.py", "symbols": ["mult", "dualize"]}]}
