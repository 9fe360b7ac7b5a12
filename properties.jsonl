{"id": "C01", "title": "Memoised class methods are transparent", "statement": "For a deterministic function f wrapped by @cached_value, every call returns exactly what a direct call of f with the same arguments returns (including raising when f raises), whatever calls were made before; f is evaluated successfully at most once per argument tuple and a call that raises leaves later calls unaffected.", "quantifier": "every pure (possibly raising) function f, every initial cache produced by such calls, every finite history of calls", "why_tests_cant": "A test fixes one call order; the claim is about all histories, including histories containing failing calls.", "anchors": ["cached.py: cached_value"]}
{"id": "C02", "title": "Look-ups in the mappings returned by the memoised counting function never make later look-ups wrong", "statement": "A client who only looks up weights in the mapping returned by Tableau.count_semistandard never changes the value (or exception) that any later look-up yields; SymmetricPolynomial.schur afterwards is either right or raises AssertionError, and it is always right if the looked-up weights have at most max_entry parts. (The stronger claim that look-ups leave no trace is false: the shared object is a defaultdict, a look-up of a missing weight inserts it, so len() changes and schur can raise.)", "quantifier": "every history of memoised calls, look-ups, listings and schur calls on arbitrary integer tuples", "why_tests_cant": "The damage only shows in histories in which a look-up of an absent key precedes another call; no single-call test sees it.", "anchors": ["cached.py: cached_value", "tableaux.py: _count_semistandard", "symmetric.py: _vectorize"]}
{"id": "C03", "title": "Polynomial +, -, * are the operations of the Laurent polynomial ring", "statement": "Coefficient extraction turns + into pointwise sum and * into convolution over exponent vectors; consequently +,-,* satisfy the commutative ring laws up to ==, with Polynomial.zero() and Polynomial.one() as neutral elements.", "quantifier": "all polynomials in any finite set of integer-indexed variables with arbitrary integer coefficients and exponents", "why_tests_cant": "Infinitely many polynomials; cancellation and dictionary key normalisation bugs only show for particular coincidences.", "anchors": ["polynomials.py: Polynomial.__add__, __sub__, __neg__, __mul__, one, zero, monomial"]}
{"id": "C04", "title": "Polynomial == and is_zero decide mathematical equality; no zero coefficient is ever stored", "statement": "f == g holds iff f and g have the same coefficient at every monomial; is_zero iff all coefficients vanish; results of +,-,* on polynomials without stored zero coefficients store none (so len is the number of terms).", "quantifier": "all polynomials", "why_tests_cant": "Depends on an invariant of every operation sequence that produced the arguments.", "anchors": ["polynomials.py: Polynomial.__eq__, nnz, is_zero, __len__, __bool__"]}
{"id": "C05", "title": "Polynomial powers", "statement": "For i >= 0, f**i is the i-fold product; for a negative exponent on an invertible monomial, f**(-i) is the inverse of f**i. (The second half is expected to fail for coefficient -1 and even i.)", "quantifier": "all polynomials and all integer exponents", "why_tests_cant": "Sign errors appear only for coefficient -1 with even negative exponent.", "anchors": ["polynomials.py: Polynomial.__pow__"]}
{"id": "C06", "title": "Substitution is evaluation", "statement": "substitute(i, e) replaces the variable i by e: it commutes with + and *, fixes constants and other variables, and sends the variable i to e; truncate(d) keeps exactly the terms of degree <= d; coefficient(i, k) is the coefficient of x_i^k.", "quantifier": "all polynomials with nonnegative exponents in variable i, all substituted polynomials e, all i, k, d", "why_tests_cant": "Quantifies over all polynomials.", "anchors": ["polynomials.py: Polynomial.substitute, truncate, coefficient"]}
{"id": "C07", "title": "Comparison and hashing of polynomials respect equality", "statement": "Equal polynomials have equal hashes (needed for use as dict keys and cache keys), and f < f is never true. (Both expected to fail.)", "quantifier": "all pairs of equal polynomials", "why_tests_cant": "Depends on the insertion order of exponents, i.e. on how the polynomial was built.", "anchors": ["polynomials.py: Polynomial.__hash__, __repr__, index_to_str, __lt__, __gt__"]}
{"id": "C08", "title": "Vector is a free module: +, -, scalar * and == are coefficientwise", "statement": "Looking up any key in v+w, v-w, c*v, -v gives the sum, difference, multiple of the looked up coefficients; v == w iff all coefficients agree; no zero coefficient is stored; the abelian group and module laws hold up to ==.", "quantifier": "all finitely supported vectors over any key type, all integer scalars", "why_tests_cant": "Infinite input space, cancellation.", "anchors": ["vectors.py: Vector.__init__, __add__, __sub__, __mul__, __neg__, __eq__, __getitem__, is_zero"]}
{"id": "C09", "title": "Vector product is bilinear and powers are iterated products", "statement": "With a multiplier, the coefficient of m in v*w is the sum of v[a]*w[b]*coeff over all (m,coeff) in multiplier(a,b); the product distributes over + and commutes with scalars; if the multiplier is associative so is *, and then v**k is the k-fold product for k >= 1.", "quantifier": "all vectors, all multipliers, all exponents k >= 1", "why_tests_cant": "Unbounded supports and exponents (repeated squaring).", "anchors": ["vectors.py: Vector.__mul__, __pow__"]}
{"id": "C10", "title": "is_expressable decides membership in the rational span", "statement": "v.is_expressable(a1,...,ak) is True iff there are rational numbers c1..ck with v = c1*a1+...+ck*ak; the elimination never violates its internal exact-division assertion, and rref returns a row-equivalent echelon matrix.", "quantifier": "all integer vectors v, a1..ak with any finite support", "why_tests_cant": "Unbounded dimension and coefficient size; an elimination bug shows only for special rank patterns.", "anchors": ["vectors.py: Vector.is_expressable, rref"]}
{"id": "C11", "title": "nchoosek computes binomial coefficients", "statement": "nchoosek(m, k) = m!/(k!(m-k)!) for 0 <= k <= m and 0 for k > m >= 0, although it divides with floor division after multiplying everything.", "quantifier": "all natural numbers m, k", "why_tests_cant": "Exactness of the floor divisions must hold for all m, k.", "anchors": ["tableaux.py: nchoosek"]}
{"id": "C12", "title": "Partition.transpose is conjugation and an involution", "statement": "Cell (i,j) lies in transpose(mu) iff (j,i) lies in mu; transpose(mu) is a partition with positive parts of the same size; transpose(transpose(mu)) == mu.", "quantifier": "all partitions with positive parts", "why_tests_cant": "Unbounded shapes.", "anchors": ["partitions.py: Partition.transpose, isin, get"]}
{"id": "C13", "title": "Basic shape operations mean what they say", "statement": "trim removes exactly trailing zeros; sort returns the weakly decreasing rearrangement; contains is exactly cellwise inclusion on partitions and hence a partial order on trimmed partitions; union is the join for it; add_box_to_row adds one cell.", "quantifier": "all tuples of nonnegative integers", "why_tests_cant": "Unbounded shapes.", "anchors": ["partitions.py: Partition.trim, sort, contains, union, add, add_box_to_row, get"]}
{"id": "C14", "title": "Partition.compositions enumerates compositions exactly once", "statement": "compositions(n) lists every tuple of positive integers with sum n exactly once and nothing else.", "quantifier": "all n >= 0", "why_tests_cant": "Completeness and no-duplication for all n.", "anchors": ["partitions.py: Partition.compositions"]}
{"id": "C15", "title": "Partition.generate / all enumerate exactly the requested partitions, in every call history", "statement": "generate(n, max_part, max_row, strict, even_parts) yields each partition of n with parts <= max_part, at most max_row parts, strict/even if requested, exactly once and nothing else, independently of the contents of the module-level table left by earlier calls (including abandoned generators).", "quantifier": "all n, all bounds (including None), both flags, every call history", "why_tests_cant": "The module-level table is shared by all calls, so correctness is a statement about histories.", "anchors": ["partitions.py: Partition.generate, all, PARTITIONS"]}
{"id": "C16", "title": "Partition.subpartitions enumerates exactly the interval below mu", "statement": "subpartitions(mu, nu, strict) yields each (strict) partition kappa with nu <= kappa <= mu cellwise exactly once, trimmed. Without the hypothesis len(nu) <= len(mu) this is expected to fail.", "quantifier": "all partitions mu, nu", "why_tests_cant": "Completeness/no-duplication for all shapes; the failing case needs nu longer than mu.", "anchors": ["partitions.py: Partition.subpartitions"]}
{"id": "C17", "title": "Partition.successors enumerates exactly the vertical-strip extensions without new rows", "statement": "successors(mu, strict) yields each (strict) partition obtained from mu by adding at most one cell to each existing row exactly once and nothing else.", "quantifier": "all (strict) partitions mu", "why_tests_cant": "Completeness for all shapes.", "anchors": ["partitions.py: Partition.successors"]}
{"id": "C18", "title": "Corner removal enumerates exactly the sets of removable corners", "statement": "remove_inner_corners(mu) yields each partition obtained from mu by removing a set of corner cells exactly once; remove_shifted_inner_corners does the same for shifted shapes and strict partitions; no exception escapes.", "quantifier": "all partitions / strict partitions with positive parts", "why_tests_cant": "Completeness/no-duplication for all shapes; exceptions must never escape.", "anchors": ["partitions.py: Partition.remove_inner_corners, remove_inner_corner, remove_shifted_inner_corners, remove_shifted_inner_corner"]}
{"id": "C19", "title": "Partition.complement is set complement of parts", "statement": "For a strict partition mu with parts at most n, complement(n, mu) is the decreasing list of the numbers 1..n that are not parts of mu; complement(n, complement(n, mu)) == mu.", "quantifier": "all n and all strict partitions with parts <= n", "why_tests_cant": "Unbounded n.", "anchors": ["partitions.py: Partition.complement"]}
{"id": "C20", "title": "Shapes round trip", "statement": "shape, shifted_shape, skew list exactly the cells of the (shifted, skew) diagram without repetition, and from_shape(shape(mu)) == mu == from_shape(shifted_shape(mu)) whatever order the set of cells is iterated in.", "quantifier": "all partitions with positive parts and all iteration orders of the cell set", "why_tests_cant": "Set iteration order is unspecified; must hold for all orders.", "anchors": ["partitions.py: Partition.shape, shifted_shape, skew, from_shape"]}
{"id": "C21", "title": "Growth diagrams satisfy Fomin's local rules globally", "statement": "growth_diagram(matrix) terminates for every nonnegative integer matrix; each vertex (i,j) is labelled by a trimmed partition whose size is the sum of the matrix entries in the rectangle [1..i]x[1..j]; neighbouring labels differ by a horizontal strip; transposing the matrix transposes the diagram.", "quantifier": "all finite nonnegative integer matrices given as dictionaries", "why_tests_cant": "Unbounded matrices; includes termination of an unguarded while-True loop.", "anchors": ["partitions.py: Partition.growth_diagram"]}
{"id": "C22", "title": "Crystal operators on words are mutually inverse partial maps", "statement": "f_i(w) == v iff e_i(v) == w for f_i = Word.f_crystal_operator, e_i = Word.e_crystal_operator; both preserve length, change exactly one letter (i to i+1, resp. i+1 to i), and never fail their internal assertion; the same holds for tuples of subwords, whose block lengths are preserved.", "quantifier": "all words of integers, all i, all ways of splitting into subwords", "why_tests_cant": "Bracketing is a global property of arbitrarily long words.", "anchors": ["words.py: Word.f_crystal_operator, Word.e_crystal_operator"]}
{"id": "C23", "title": "Quasisymmetrization coefficient formula", "statement": "The coefficient of a composition alpha in Word.quasisymmetrize(w, zeta) is the product of zeta over the consecutive factors of w with lengths alpha if alpha is a composition of len(w), and 0 otherwise.", "quantifier": "all words and all integer valued functions zeta", "why_tests_cant": "zeta is an arbitrary function.", "anchors": ["words.py: Word.quasisymmetrize"]}
{"id": "C24", "title": "Zeta functions, ascents and descents of words", "statement": "increasing_zeta etc. are the indicator functions of strictly/weakly monotone words; unimodal_zeta is 1 on the empty word, 2 on nonempty words that strictly decrease then strictly increase, 1 on words whose bottom letter is repeated once between a strict decrease and a strict increase, 0 otherwise (so it is not a multiple of an indicator function); the half weak variants are 2 or 0 and the weak/weak variant is one more than the multiplicity of the minimum or 0; ascents and descents partition the adjacent positions.", "quantifier": "all words of integers", "why_tests_cant": "Arbitrary words.", "anchors": ["words.py: Word.increasing_zeta, decreasing_zeta, weakly_increasing_zeta, weakly_decreasing_zeta, unimodal_zeta, ascents, descent_set"]}
{"id": "C25", "title": "get_increasing_factorizations lists exactly the monotone k-factorizations", "statement": "WordCrystalGenerator.get_increasing_factorizations(w, k, decreasing) yields each k-tuple of weakly increasing (resp. strictly decreasing) words whose concatenation is w exactly once and nothing else.", "quantifier": "all words w, all k >= 0, both flags", "why_tests_cant": "Completeness for all words.", "anchors": ["crystals.py: WordCrystalGenerator.get_increasing_factorizations"]}
{"id": "C26", "title": "Permutation is a group of signed permutations in canonical form", "statement": "The constructor accepts exactly the one-line words of signed permutations and strips trailing fixed points; equality of objects is equality of maps on all integers; (u*v)(i) == u(v(i)); inverse is two-sided; products and inverses are again canonical.", "quantifier": "all signed permutations of any rank", "why_tests_cant": "Unbounded rank.", "anchors": ["permutations.py: Permutation.__init__, __call__, __mul__, inverse, __eq__, s_i"]}
{"id": "C27", "title": "Length and descents", "statement": "For i >= 0, len(w*s_i) = len(w)-1 if i is in right_descent_set and len(w)+1 otherwise (dually on the left), len(w) = 0 iff w is the identity and len(w.inverse()) = len(w).", "quantifier": "all signed permutations and all i >= 0", "why_tests_cant": "Unbounded rank.", "anchors": ["permutations.py: Permutation.__len__, right_descent_set, left_descent_set, s_i"]}
{"id": "C28", "title": "Reduced words", "statement": "get_reduced_word returns a word of length len(w) whose product is w; get_reduced_words yields exactly the words of length len(w) in the generators with product w, each once, in every call history, including histories with generators abandoned half-way.", "quantifier": "all signed permutations, all call histories, all set iteration orders", "why_tests_cant": "Shared cache and generators: a statement about histories and iteration orders.", "anchors": ["permutations.py: Permutation.get_reduced_word, get_reduced_words, from_word"]}
{"id": "C29", "title": "% is the Demazure (0-Hecke) product", "statement": "u % v does not depend on which left descent the implementation happens to pick; w % s_i = w if i is a right descent of w and w*s_i otherwise; % is associative with the identity as unit.", "quantifier": "all signed permutations, all choices of descents", "why_tests_cant": "The implementation picks an arbitrary element of a set; independence is a theorem (braid relations).", "anchors": ["permutations.py: Permutation.__mod__"]}
{"id": "C30", "title": "Hecke word generators do not influence each other", "statement": "hecke_levels(n, length_bound, ascent_bound) yields the levels of words of length 0,1,2,... over 1..n-1 whatever other hecke_levels generators were created, partly consumed or abandoned before. It is also expected while another one is being consumed in an interleaved way (that part fails).", "quantifier": "all n and bounds, every history/interleaving of generator steps", "why_tests_cant": "A statement about all schedules of live generators sharing a module-level cache.", "anchors": ["permutations.py: Permutation.hecke_levels, get_hecke_words, HECKE_CACHE"]}
{"id": "C31", "title": "Powers of permutations", "statement": "w**n is the n-fold product for every integer n (n = 0 giving the identity, negative n the inverse). (n = 0 is expected to fail: the call raises.)", "quantifier": "all permutations, all integers n", "why_tests_cant": "A corner case of the exponent combined with all permutations.", "anchors": ["permutations.py: Permutation.__pow__"]}
{"id": "C32", "title": "Tableau is a finite map from cells to sorted entry tuples", "statement": "Lookups after add/remove/replace/clear/set/transpose behave like a map of sorted multisets: add inserts one entry in its cell and changes no other cell, remove deletes one occurrence, transpose is an involution exchanging coordinates.", "quantifier": "all tableaux, cells and values", "why_tests_cant": "Quantifies over all sequences of operations.", "anchors": ["tableaux.py: Tableau.__init__, add, remove, replace, get, transpose, boxes"]}
{"id": "C33", "title": "Horizontal and vertical strips are enumerated exactly", "statement": "The strip enumerators underlying all tableau generators yield each nu such that mu/nu is a horizontal (vertical) strip avoiding lam exactly once, together with exactly the cells of mu/nu and exactly the cells of nu that may additionally hold the maximal entry.", "quantifier": "all partitions mu containing lam, shifted and unshifted", "why_tests_cant": "Completeness for all shapes.", "anchors": ["tableaux.py: Tableau._horizontal_strips, _vertical_strips, _shifted_horizontal_strips, _shifted_vertical_strips"]}
{"id": "C34", "title": "semistandard enumerates exactly the (set-valued) semistandard tableaux", "statement": "Tableau.semistandard(n, mu, nu) and semistandard_setvalued(n, mu, nu) return exactly the (set-valued) semistandard fillings of mu/nu with entries 1..n.", "quantifier": "all n >= 0 and all partitions nu <= mu", "why_tests_cant": "Soundness and completeness for all shapes.", "anchors": ["tableaux.py: Tableau.semistandard, semistandard_setvalued, _semistandard"]}
{"id": "C35", "title": "Counting agrees with enumeration", "statement": "count_semistandard(n, mu, nu)[alpha] (and the set-valued version) is the number of tableaux in semistandard(n, mu, nu) whose weight is the partition alpha.", "quantifier": "all n, mu, nu, alpha", "why_tests_cant": "The fast path uses binomials and pruning with break; agreement must hold for every shape.", "anchors": ["tableaux.py: Tableau.count_semistandard, _count_semistandard", "symmetric.py: SymmetricPolynomial.schur, stable_grothendieck"]}
{"id": "C36", "title": "Shifted marked counting agrees with enumeration", "statement": "count_semistandard_shifted_marked(n, mu, nu, diagonal_primes, setvalued)[alpha] is the number of shifted marked (set-valued) tableaux with weight alpha returned by the enumerator.", "quantifier": "all n, strict mu, nu, alpha, both flags", "why_tests_cant": "As C35 with two interleaved strips per letter.", "anchors": ["tableaux.py: Tableau._count_semistandard_shifted_marked, _semistandard_shifted_marked"]}
{"id": "C37", "title": "Schur polynomials and stable Grothendieck polynomials are symmetric", "statement": "The number of (set-valued) semistandard tableaux of shape mu/nu with entries <= n and weight alpha is invariant under permuting alpha; therefore expanding by partition-weights loses nothing and the slow path's symmetry assertion never fires.", "quantifier": "all n, mu, nu, weights", "why_tests_cant": "An identity between counts for every shape and weight.", "anchors": ["symmetric.py: SymmetricPolynomial.schur, stable_grothendieck, _slow_vectorize"]}
{"id": "C38", "title": "Products of symmetric polynomials agree with products of ordinary polynomials", "statement": "(f*g).polynomial() == f.polynomial()*g.polynomial() for symmetric polynomials in the same number of variables, although the product of monomials is computed in only min(n, len(mu)+len(nu)) variables.", "quantifier": "all n and all symmetric polynomials f, g", "why_tests_cant": "The truncation of the variable set must be harmless for all n and shapes.", "anchors": ["symmetric.py: SymmetricMonomial._multiply, _destandardize, polynomial"]}
{"id": "C39", "title": "Expansions reconstruct the input and are unique", "statement": "If any of the expansion methods returns c on a nonzero symmetric polynomial f then the sum of basis(mu)*c[mu] equals f. schur_expansion(f) returns for every symmetric polynomial f in n variables whose coefficients are ints or polynomials in powers of beta, and if f is a finite linear combination of Schur polynomials of partitions with at most n rows it returns exactly the coefficients. (When a coefficient involves another variable, as in x_1*m_mu, the recursion never ends.)", "quantifier": "all symmetric polynomials / all coefficient families", "why_tests_cant": "Termination and triangularity for every input.", "anchors": ["symmetric.py: SymmetricPolynomial._expansion, _get_term_from_lowest_degree, lowest_degree_terms, schur_expansion, grothendieck_expansion"]}
{"id": "C40", "title": "Shifted box-adding operators satisfy the 0-Hecke type relations", "statement": "operator_shifted_add(i) maps strict partitions to strict partitions, is linear, satisfies op_i(op_i(v)) == beta*op_i(v), op_i and op_j commute for |i-j| > 1, op_i op_(i+1) op_i == 0 for i > 0 and op_(i+1) op_i op_(i+1) == 0 for i >= 0. On one shape it gives beta times the shape when the shape has a removable corner on diagonal i, the shape with a box added on diagonal i when that is a strict partition, and 0 otherwise. operator_AL(n, var) and operator_AR(n, var) are linear.", "quantifier": "all i, j >= 0 and all vectors of strict partitions", "why_tests_cant": "Relations must hold on an infinite basis.", "anchors": ["operators.py: operator_shifted_add", "partitions.py: Partition.find_shifted_inner_corner, find_shifted_outer_corner"]}
{"id": "C41", "title": "Box-removing operators: action on one shape, and failure of linearity", "statement": "On a single strict partition mu the coefficient of nu in operator_shifted_row_remove(i) is (-beta)^e when mu is nu plus a row of e+1 boxes ending on diagonal i, and 0 for every other nu; for operator_shifted_column_remove(i) the same with a column of boxes starting on diagonal i. Both operators ignore the coefficients of the input vector, so op(c*v) == c*op(v) fails.", "quantifier": "all vectors and scalars", "why_tests_cant": "Tests apply the operators to single shapes with coefficient 1.", "anchors": ["operators.py: operator_shifted_row_remove, operator_shifted_column_remove"]}
{"id": "C42", "title": "Strip-adding operators produce strict partitions", "statement": "If sh_horizontal_strip(a,b)(mu) (sh_vertical_strip(a,b)(mu)) is not None then it is a strict partition containing mu whose new cells are exactly one on each diagonal a..b, all in one row (column); and None is returned only if no such strict partition exists.", "quantifier": "all a <= b and all strict partitions mu", "why_tests_cant": "Unbounded shapes.", "anchors": ["dualops.py: sh_horizontal_strip, sh_vertical_strip"]}
{"id": "C43", "title": "Box operator words form an associative algebra", "statement": "The product of BoxOperators is associative, distributes over +, and a product of words vanishes exactly when the concatenation violates the relations (otherwise it is the concatenation). BoxOperator(0) is a unit exactly on the combinations of words that satisfy the relations; it is not a unit on e.g. BoxOperator(0,1,1).", "quantifier": "all box operators", "why_tests_cant": "Relations must hold for all words.", "anchors": ["boxes.py: BoxOperator.__mul__, box_operator_relations, box_operator_multipler"]}
{"id": "C44", "title": "Hecke insertion is total and produces an increasing tableau with a same-shape recording tableau", "statement": "InsertionAlgorithm.hecke(w) never raises; P is a straight-shape increasing tableau; Q has the same shape, contains each index 1..len(w) exactly once, and is (set-valued) standard. A compatible record renames the values of Q and leaves a semistandard (multi)set-valued tableau; an incompatible record is an AssertionError.", "quantifier": "all words of integers, both values of multisetvalued, all records", "why_tests_cant": "Arbitrarily long words; includes absence of exceptions (max of an empty list) on every run.", "anchors": ["insertion.py: InsertionAlgorithm.hecke, HState"]}
{"id": "C45", "title": "Hecke insertion is invertible", "statement": "inverse_hecke(*hecke(w, record, m), m) == (w, record), and likewise for the default record; hence hecke is injective. (False for words with negative letters: hecke((-1,-1)) is inverted to (-1,0).)", "quantifier": "all words of nonnegative integers, all compatible positive records, both values of multisetvalued", "why_tests_cant": "Bijectivity for all words.", "anchors": ["insertion.py: InsertionAlgorithm.hecke, inverse_hecke"]}
{"id": "C46", "title": "Decrement operations stay within strict partitions", "statement": "decrement_one of a nonempty strict partition is a strict partition with exactly one cell less contained in it; decrement_strict likewise returns a strict partition contained in the input.", "quantifier": "all strict partitions", "why_tests_cant": "Unbounded shapes.", "anchors": ["partitions.py: Partition.decrement_one, decrement_strict"]}
{"id": "C47", "title": "Permutation.code is the Lehmer code", "statement": "sum(code) is the length, code[i] counts the inversions starting at i, and unsigned permutations with equal codes are equal.", "quantifier": "all unsigned permutations", "why_tests_cant": "Unbounded rank.", "anchors": ["permutations.py: Permutation.code"]}
{"id": "C48", "title": "Crystal components partition the vertices", "statement": "components(vertices, edges) returns the connected components of the undirected graph: disjoint, covering all vertices, closed under edges, and any two vertices in one component are connected by a path.", "quantifier": "all finite graphs, all choices of the start vertex", "why_tests_cant": "Arbitrary graphs and set iteration orders.", "anchors": ["crystals.py: CrystalMixin.components"]}
{"id": "C49", "title": "Word statistics: ascents and peaks", "statement": "Word.ascents(v) is the number of weak ascents of v; Word.peaks(v) is the least number of consecutive pieces into which v can be cut so that no piece has an interior letter that is >= both neighbours.", "quantifier": "all integer words of any length", "why_tests_cant": "Unbounded length and letters; the minimum ranges over all ways of cutting.", "anchors": ["words.py: Word.ascents, Word.peaks"]}
{"id": "C50", "title": "i-strings of a crystal cut the vertices into maximal chains", "statement": "If lowering and raising are mutually inverse partial maps on the elements, istrings(i) terminates and lists exactly the maximal chains x, f(x), f(f(x)), ... starting at elements killed by e, each element at most once, and exactly once if f increases some statistic. (Without the inverse property the loop may not terminate.)", "quantifier": "all finite crystals, all operators", "why_tests_cant": "Arbitrary finite crystals; termination of the while True loop.", "anchors": ["crystals.py: CrystalMixin.istrings, CrystalMixin.edges"]}
{"id": "C51", "title": "Marked and shifted marked enumerators are exact", "statement": "Tableau.semistandard_marked(n, mu, nu, setvalued) and semistandard_shifted_marked(n, mu, nu, diagonal_primes, setvalued) return exactly the fillings of the (shifted) skew shape mu/nu by nonempty sets of letters 1' < 1 < ... < n' < n, weakly increasing along rows and columns, with no primed letter repeated in a row, no unprimed letter repeated in a column, and no primed letter on the diagonal unless diagonal_primes; sets have one element unless setvalued.", "quantifier": "all n >= 0, all partitions (strict partitions) nu inside mu, all flags", "why_tests_cant": "Soundness and completeness for all shapes, for every iteration order of Python sets.", "anchors": ["tableaux.py: Tableau.semistandard_marked, semistandard_marked_setvalued, semistandard_shifted_marked, semistandard_shifted, semistandard_shifted_marked_setvalued"]}
{"id": "C52", "title": "Grothendieck expansions are total and unique", "statement": "grothendieck_expansion(f) returns for every symmetric polynomial f in n variables whose coefficients are ints or polynomials in powers of beta; the sum of stable_grothendieck(n, mu)*c[mu] over its result c is f, and if f is a finite linear combination of stable Grothendieck polynomials of partitions with at most n rows then the result has exactly its coefficients.", "quantifier": "all symmetric polynomials / all coefficient families", "why_tests_cant": "Although stable Grothendieck polynomials are inhomogeneous and each step introduces terms of higher degree, the recursion must end for every input.", "anchors": ["symmetric.py: SymmetricPolynomial._expansion, grothendieck_expansion, stable_grothendieck, _vectorize", "tableaux.py: Tableau.count_semistandard_setvalued"]}
{"id": "C53", "title": "A degree bound keeps exactly the terms of bounded degree", "statement": "stable_grothendieck(n, mu, nu, degree_bound=b) is the polynomial obtained from stable_grothendieck(n, mu, nu) by keeping exactly the terms whose total degree in x_1, ..., x_n is at most b.", "quantifier": "all n, all partitions mu, nu, all ints b", "why_tests_cant": "Truncation happens before the multiplication by a power of beta and in terms of partitions, not monomials; an off-by-one loses or adds a layer for every shape.", "anchors": ["symmetric.py: SymmetricPolynomial.stable_grothendieck, _vectorize"]}
{"id": "C54", "title": "Standard tableau enumerators are exact", "statement": "Tableau.standard(mu, nu) returns, without repetition, exactly the fillings of the skew shape mu/nu by 1, ..., |mu|-|nu|, each used once, increasing along rows and down columns; standard_shifted_marked(mu, nu, diagonal_primes) returns exactly the fillings of the shifted skew shape by +-1, ..., +-(|mu|-|nu|), each absolute value used once, absolute values increasing along rows and columns, with no negative entry on the diagonal unless diagonal_primes. Both return the empty set if nu is not contained in mu; the second raises AssertionError if mu is not strict.", "quantifier": "all partitions (strict partitions) mu, nu, both flags", "why_tests_cant": "The number of standard tableaux grows factorially; soundness and completeness must hold for all shapes and every iteration order of Python sets.", "anchors": ["tableaux.py: Tableau.standard, standard_shifted_marked"]}
{"id": "C55", "title": "S, Q and P polynomials are generating functions of marked tableaux", "statement": "The polynomial of schur_s(n, mu, nu), schur_q(n, mu, nu), schur_p(n, mu, nu) in x_1, ..., x_n (or y_1, ..., y_n) has as coefficient of each monomial the number of marked tableaux of shape mu/nu, of shifted marked tableaux of shape mu/nu, and of those without primes on the diagonal, of that weight; it has no other terms, and is 0 if nu is not contained in mu.", "quantifier": "all n, all partitions (strict partitions) mu, nu, all monomials", "why_tests_cant": "The code only counts tableaux of partition weight and symmetrises; that every other weight has the same count is a theorem about all shapes.", "anchors": ["symmetric.py: SymmetricPolynomial.schur_s, schur_q, schur_p, _vectorize, polynomial", "tableaux.py: Tableau.count_semistandard_marked, count_semistandard_shifted_marked"]}
{"id": "C56", "title": "GS, GQ and GP polynomials are generating functions of set-valued marked tableaux", "statement": "The polynomial of stable_grothendieck_s/_q/_p(n, mu, nu, degree_bound) has as coefficient of beta^k x^alpha the number of set-valued (shifted) marked tableaux of shape mu/nu of weight alpha (for _p without primes on the diagonal) if k = |alpha| - |mu/nu| and |alpha| is at most the degree bound, and 0 otherwise.", "quantifier": "all n, all partitions (strict partitions) mu, nu, all degree bounds, all monomials", "why_tests_cant": "Symmetry of these counts is not visible in the code and holds for shapes of any size; exponents of beta and truncation must be right for every term.", "anchors": ["symmetric.py: SymmetricPolynomial.stable_grothendieck_s, stable_grothendieck_q, stable_grothendieck_p, _vectorize"]}
{"id": "C57", "title": "The slow path agrees for the S, Q, P families", "statement": "_slow_schur_s/_q/_p and _slow_stable_grothendieck_s/_q/_p, which enumerate all tableaux, never fail their symmetry assertion, and return the same symmetric polynomials as schur_s/_q/_p and stable_grothendieck_s/_q/_p.", "quantifier": "all n, all partitions (strict partitions) mu, nu", "why_tests_cant": "The tests compare the two paths on small shapes only.", "anchors": ["symmetric.py: SymmetricPolynomial._slow_vectorize, _slow_schur_s, _slow_schur_q, _slow_schur_p, _slow_stable_grothendieck_s, _slow_stable_grothendieck_q, _slow_stable_grothendieck_p"]}
{"id": "C58", "title": "Marked tableau counts are symmetric in the weight", "statement": "The number of (set-valued) marked tableaux of shape mu/nu, and of (set-valued) shifted marked tableaux of shape mu/nu with or without primes allowed on the diagonal, of a given weight in n letters does not change when the weight is permuted.", "quantifier": "all n, all shapes, all weights and all their permutations", "why_tests_cant": "An identity between numbers of tableaux for all shapes; needs a bijection or algebra, not examples.", "anchors": ["tableaux.py: Tableau.semistandard_marked, semistandard_shifted_marked, count_semistandard_marked, count_semistandard_shifted_marked", "symmetric.py: SymmetricPolynomial._vectorize"]}
{"id": "C59", "title": "Doublebar polynomials sum over removed corners", "statement": "stable_grothendieck_doublebar, _s_doublebar, _q_doublebar and _p_doublebar(n, mu, nu, degree_bound) return 0 unless nu is contained in mu; otherwise the polynomial of the result has as coefficient of beta^(|alpha| - |mu/nu|) x^alpha the number of set-valued (marked, shifted marked) tableaux of weight alpha of the shapes mu/kappa, kappa obtained from nu by removing any set of its corner cells, and no other terms; terms above the degree bound are dropped.", "quantifier": "all n, all partitions (strict partitions) mu, nu, all degree bounds, all monomials", "why_tests_cant": "The powers of beta of the summands differ and must combine for every corner set; collisions between summands have to add up.", "anchors": ["symmetric.py: SymmetricPolynomial.stable_grothendieck_doublebar, stable_grothendieck_s_doublebar, stable_grothendieck_q_doublebar, stable_grothendieck_p_doublebar", "partitions.py: Partition.remove_inner_corners, remove_shifted_inner_corners"]}
{"id": "C60", "title": "Negating beta changes the sign of odd powers of beta only", "statement": "negate_beta(f), for f with Polynomial coefficients without negative powers of beta, multiplies every term with an odd power of beta by -1 and leaves the others; mn_stable_grothendieck, mn_stable_grothendieck_p and mn_stable_grothendieck_q return and are related in this way to stable_grothendieck, _p, _q.", "quantifier": "all such f; all n, all partitions (strict partitions) mu, nu", "why_tests_cant": "Goes through Polynomial.substitute, which asserts nonnegative exponents and whose powers of -beta are wrong for negative exponents; that no negative exponent occurs must hold for every shape.", "anchors": ["symmetric.py: SymmetricPolynomial.negate_beta, mn_stable_grothendieck, mn_stable_grothendieck_p, mn_stable_grothendieck_q", "polynomials.py: Polynomial.substitute"]}
{"id": "C61", "title": "P, Q, GP and GQ expansions return on exactly the combinations, with their coefficients", "statement": "SymmetricPolynomial.P_expansion, Q_expansion, GP_expansion, GQ_expansion, mn_GP_expansion and mn_GQ_expansion, on a symmetric polynomial f whose coefficients are ints or Laurent polynomials in beta: if f is a combination of family members indexed by strict partitions, the call terminates and returns exactly the coefficients of that combination; and whatever the call returns is such a combination equal to f.", "quantifier": "every number of variables, every canonical symmetric f with beta coefficients, every combination over strict partitions, every set iteration order, every recursion limit", "why_tests_cant": "termination of the recursion and uniqueness of the coefficients hold for unboundedly many combinations; the K-theoretic families are not contained in a finite box of monomials", "anchors": ["symmetric.py:SymmetricPolynomial.P_expansion", "symmetric.py:SymmetricPolynomial.Q_expansion", "symmetric.py:SymmetricPolynomial.GP_expansion", "symmetric.py:SymmetricPolynomial.GQ_expansion", "symmetric.py:SymmetricPolynomial.mn_GP_expansion", "symmetric.py:SymmetricPolynomial.mn_GQ_expansion"]}
{"id": "C62", "title": "mn_grothendieck_expansion is total and returns the unique coefficients", "statement": "SymmetricPolynomial.mn_grothendieck_expansion terminates on every symmetric polynomial with coefficients in powers of beta, returns coefficients whose combination of mn_stable_grothendieck polynomials is f, and these agree with any other such combination.", "quantifier": "every number of variables, every canonical symmetric f, every set iteration order", "why_tests_cant": "needs the signed family to be unitriangular for all partitions", "anchors": ["symmetric.py:SymmetricPolynomial.mn_grothendieck_expansion", "symmetric.py:SymmetricPolynomial.mn_stable_grothendieck"]}
{"id": "C63", "title": "omega_schur_expansion transposes every index of the Schur expansion", "statement": "SymmetricPolynomial.omega_schur_expansion(f) returns for every symmetric f with beta coefficients; its entries are exactly the entries of the Schur expansion of f with each partition replaced by its conjugate, with no entry lost by key collision.", "quantifier": "every number of variables, every canonical symmetric f, every set iteration order", "why_tests_cant": "collisions of keys in the dict comprehension and missing entries are excluded only for all partitions at once", "anchors": ["symmetric.py:SymmetricPolynomial.omega_schur_expansion", "partitions.py:Partition.transpose"]}
{"id": "C64", "title": "S_expansion does not return on its own family", "statement": "SymmetricPolynomial.S_expansion raises an AssertionError on schur_s(2, (2, 1)) at every recursion limit, and schur_s(2, (1, 1)) equals schur_s(2, (2,)), so the S polynomials are not a basis and S_expansion does not compute coefficients of combinations (recorded defect).", "quantifier": "every recursion limit, for the stated polynomials", "why_tests_cant": "a test with one recursion limit cannot exclude that a larger limit succeeds", "anchors": ["symmetric.py:SymmetricPolynomial.S_expansion", "symmetric.py:SymmetricPolynomial.schur_s"]}
{"id": "C65", "title": "Reverse plane partition enumerators are exact", "statement": "Tableau.semistandard_rpp(n, mu, nu) returns every reverse plane partition of shape mu/nu with entries 1..n exactly once, and semistandard_marked_rpp(n, mu, nu, diagonal_nonprimes) every marked shifted reverse plane partition (letters 1' < 1 < 2' < 2 ... weakly increasing along rows and columns, primed diagonal when diagonal_nonprimes is false) exactly once; both return the empty set when nu is not contained in mu.", "quantifier": "all n, all (strict) partitions mu and nu, and every iteration order of the Python sets involved", "why_tests_cant": "The number of fillings is unbounded and the recursion peels whole strips; spot checks can miss a missing or duplicated filling.", "anchors": ["tableaux.py: Tableau.semistandard_rpp, semistandard_marked_rpp, semistandard_shifted_rpp, _rpp_vertical_strips, _rpp_horizontal_strips, _shifted_rpp_horizontal_strips, _shifted_rpp_vertical_strips"]}
{"id": "C66", "title": "Reverse plane partition counters agree with the enumerators", "statement": "count_semistandard_rpp(n, mu, nu)[alpha] is the number of enumerated reverse plane partitions whose weight (number of columns containing each letter) is alpha, for every partition alpha with at most n parts, and no other key is present; count_semistandard_marked_rpp likewise with columns containing i plus rows containing i'. A non-strict outer shape of the marked versions raises AssertionError.", "quantifier": "all n, all (strict) partitions mu, nu, all partitions alpha with at most n parts, all set iteration orders", "why_tests_cant": "The counter never builds a tableau; agreement with the enumerator on all shapes and weights cannot be tested exhaustively.", "anchors": ["tableaux.py: Tableau.count_semistandard_rpp, count_semistandard_marked_rpp, semistandard_rpp, semistandard_marked_rpp"]}
{"id": "C67", "title": "Weights of reverse plane partitions", "statement": "ReversePlanePartition.weight(n) on a reverse plane partition with entries in 1..n returns, for each letter, the number of columns containing it; MarkedReversePlanePartition.weight(n) returns the number of columns containing i plus the number of rows containing i'.", "quantifier": "all n, all skew shapes and all (marked) reverse plane partitions on them", "why_tests_cant": "The statement ranges over all fillings of all shapes.", "anchors": ["tableaux.py: ReversePlanePartition.weight, MarkedReversePlanePartition.weight"]}
{"id": "C68", "title": "Reverse plane partition counts are symmetric in the weight", "statement": "For a skew shape mu/nu and n letters, the number of enumerated reverse plane partitions (weight = number of columns containing each letter) of weight alpha equals the number of weight beta whenever beta is a rearrangement of alpha. This is what makes it sound for dual_stable_grothendieck to store only the counts at partitions.", "quantifier": "all n, all partitions mu, nu, all weights alpha of length n and all rearrangements", "why_tests_cant": "Symmetry holds for no local reason: no bijection is built by the code, and a test can only compare finitely many counts.", "anchors": ["symmetric.py: SymmetricPolynomial.dual_stable_grothendieck, _slow_vectorize", "tableaux.py: Tableau.count_semistandard_rpp"]}
{"id": "C69", "title": "dual_stable_grothendieck is the signed generating function of reverse plane partitions", "statement": "dual_stable_grothendieck(n, mu, nu) returns a canonical symmetric polynomial whose coefficient at m_alpha is (-beta)^(|mu|-|nu|-|alpha|) times the number of reverse plane partitions of shape mu/nu with entries up to n and weight alpha, and its polynomial() is the sum of (-beta)^(|mu|-|nu|-|wt T|) x^(wt T) over all reverse plane partitions T (0 when nu is not contained in mu), in the x or the y variables.", "quantifier": "all n, all partitions mu, nu, all exponent vectors, both variable types, all set iteration orders", "why_tests_cant": "An identity between an infinite family of polynomials and sums over tableaux; tests see finitely many shapes.", "anchors": ["symmetric.py: SymmetricPolynomial.dual_stable_grothendieck, polynomial"]}
{"id": "C70", "title": "Coefficients of dual_stable_grothendieck_p, _q and _s", "statement": "dual_stable_grothendieck_p/_q(n, mu, nu) return canonical symmetric polynomials whose coefficient at m_alpha is (-beta)^(|mu|-|nu|-|alpha|) times the number of marked shifted reverse plane partitions of shape mu/nu (primed diagonal for p) with weight alpha; such tableaux have |alpha| <= |mu|-|nu|. dual_stable_grothendieck_s(n, mu, nu) does the same for mu, nu with the staircase of length(mu) added.", "quantifier": "all n, all strict partitions mu, nu (all partitions for _s), all partitions alpha with at most n parts, all set iteration orders", "why_tests_cant": "Quantifies over all shapes and weights.", "anchors": ["symmetric.py: SymmetricPolynomial.dual_stable_grothendieck_p, dual_stable_grothendieck_q, dual_stable_grothendieck_s"]}
{"id": "C71", "title": "The slow dual Grothendieck functions agree with the fast ones", "statement": "_slow_dual_stable_grothendieck(n, mu, nu) never fails its symmetry assertion and returns a symmetric polynomial equal to dual_stable_grothendieck(n, mu, nu). Whenever _slow_dual_stable_grothendieck_p/_q return, they return a symmetric polynomial equal to the fast version; the only way for them not to return is the AssertionError of the symmetry check, which happens only if two rearranged weights really have different numbers of tableaux.", "quantifier": "all n, all partitions (strict for p and q) mu, nu, all set iteration orders", "why_tests_cant": "Two different algorithms on infinitely many inputs.", "anchors": ["symmetric.py: SymmetricPolynomial._slow_dual_stable_grothendieck, _slow_dual_stable_grothendieck_p, _slow_dual_stable_grothendieck_q, _slow_vectorize"]}
{"id": "C72", "title": "Dual Grothendieck expansions exist, are exact and unique", "statement": "dual_grothendieck_expansion(f) and mp_dual_grothendieck_expansion(f) return, for every symmetric polynomial f in n variables with coefficients in powers of beta, a vector whose combination of the basis polynomials is f coefficient by coefficient; and if f is given as a combination of basis polynomials, the returned coefficients are the given ones.", "quantifier": "all n, all symmetric polynomials f with beta coefficients, all combinations, all set iteration orders", "why_tests_cant": "Termination of the subtraction loop from the highest degree and uniqueness concern all inputs.", "anchors": ["symmetric.py: SymmetricPolynomial.dual_grothendieck_expansion, mp_dual_grothendieck_expansion, _expansion, get_term_from_highest_degree"]}
{"id": "C73", "title": "gp, gq expansions are exact on combinations; gs_expansion is not", "statement": "gp_expansion, gq_expansion, mp_gp_expansion and mp_gq_expansion applied to a combination of the corresponding polynomials return exactly the coefficients of the combination, and whatever they return on any f is a combination equal to f. gs_expansion fails even on a member of its own family: it raises on gs of (2,1) in two variables for every recursion limit, and the family is not linearly independent (gs_(2) = gs_(1,1)).", "quantifier": "all n, all symmetric polynomials f with beta coefficients, all combinations over strict partitions, all recursion limits", "why_tests_cant": "Ranges over all combinations and all recursion depths.", "anchors": ["symmetric.py: SymmetricPolynomial.gp_expansion, gq_expansion, gs_expansion, mp_gp_expansion, mp_gq_expansion, _expansion"]}
{"id": "C74", "title": "mp_dual functions change the sign of beta", "statement": "mp_dual_stable_grothendieck(n, mu, nu), mp_dual_stable_grothendieck_p and mp_dual_stable_grothendieck_q return the polynomial obtained from the version without mp_ by multiplying each coefficient of beta^k by (-1)^k, both in the monomial basis and after polynomial(); negate_beta never fails on them.", "quantifier": "all n, all (strict) partitions mu, nu, all monomials, all set iteration orders", "why_tests_cant": "Holds for every shape; negate_beta raises on other inputs, so success itself is a claim about all outputs.", "anchors": ["symmetric.py: SymmetricPolynomial.mp_dual_stable_grothendieck, mp_dual_stable_grothendieck_p, mp_dual_stable_grothendieck_q, negate_beta"]}
{"id": "C75", "title": "Valued-set tableaux are enumerated exactly once", "statement": "ValuedSetTableau.all(n, mu, nu, diagonal_primes) returns, each exactly once, the pairs of a semistandard shifted marked tableau of shape mu/nu with entries at most n (primes on the diagonal only if diagonal_primes) and a grouping of it: a 0/1 label per cell, where label 1 is allowed only if an unprimed entry equals its right neighbour or a primed entry equals the one above it. The constructor's assertion never fails on them, and weight(n) returns the vector counting the cells labelled 0 by absolute entry. A shape mu that is not strict raises AssertionError.", "quantifier": "all n, all strict partitions mu, nu (contained or not), both values of diagonal_primes, all set iteration orders", "why_tests_cant": "The binary encoding of groupings must reach each admissible labelling exactly once for every tableau.", "anchors": ["vst.py: ValuedSetTableau.all, _all, __init__, is_valid_position, weight"]}
{"id": "C76", "title": "Transposed dual families count valued-set tableaux", "statement": "slow_transposed_dual_stable_grothendieck(n, mu, nu) and its _p, _q versions return the polynomial whose coefficient at the monomial symmetric function of a partition alpha is the number of valued-set tableaux of shape mu/nu (unshifted without primes; shifted without diagonal primes; shifted with all primes) with group weight alpha, times beta^(|mu|-|nu|-|alpha|); the exponent is never negative for a nonzero coefficient. The _s version is the _q version on the shapes shifted by a staircase.", "quantifier": "all n, all (strict) partitions mu, nu, all partitions alpha with at most n parts, all set iteration orders", "why_tests_cant": "The code multiplies binomial factors per letter; that this counts groupings needs the row and column structure of every tableau.", "anchors": ["symmetric.py: SymmetricPolynomial.slow_transposed_dual_stable_grothendieck, slow_transposed_dual_stable_grothendieck_p, _q, _s"]}
{"id": "C77", "title": "j, jp, jq expansions are exact; js_expansion is not", "statement": "j_expansion(f) returns, for every symmetric polynomial f with beta coefficients, the unique coefficients in the transposed dual basis. jp_expansion and jq_expansion return exactly the coefficients of any combination of their families, and whatever they return on any f is a combination equal to f. js_expansion raises on the js polynomial of (2,1) in two variables for every recursion limit, and its family is linearly dependent.", "quantifier": "all n, all symmetric polynomials f with beta coefficients, all combinations, all set iteration orders, all recursion limits", "why_tests_cant": "Termination, exactness and uniqueness concern all inputs.", "anchors": ["symmetric.py: SymmetricPolynomial.j_expansion, jp_expansion, jq_expansion, js_expansion, _expansion"]}
{"id": "C78", "title": "Schur Q polynomials are power-of-two multiples of Schur P polynomials", "statement": "For strict partitions mu and nu and every number of variables, Q(n, mu, nu) compares equal to 2**(len(mu)-len(nu)) * P(n, mu, nu), coefficient by coefficient (the README's 8 * P == Q is the case of three rows), and the generator of marked shifted tableaux yields exactly 2**(len(mu)-len(nu)) times as many tableaux when primes are allowed on the diagonal. The README's other comparison, GP(n,(3,)) - GP(n,(4,)) == GQ(n,(3,)), is false.", "quantifier": "all strict partitions mu, nu (contained or not), all numbers of variables, all set iteration orders", "why_tests_cant": "a bijection on tableaux of every size is needed; tests compare a few shapes", "anchors": ["symmetric.py: schur_p, schur_q, stable_grothendieck_p, stable_grothendieck_q", "tableaux.py: Tableau.semistandard_shifted_marked, Tableau.count_semistandard_shifted_marked", "README.md"]}
{"id": "C79", "title": "Stable Grothendieck polynomials of permutations are the generating functions of factorizations of Hecke words", "statement": "For an unsigned permutation w, w.stable_grothendieck(n, degree_bound) always returns a symmetric polynomial (its symmetry assertion never fails) whose polynomial() is the sum of beta^(|e|-len(w)) x^e over the tuples of n strictly decreasing words of lengths e whose concatenation is a Hecke word of w, restricted to |e| <= degree_bound when that is nonnegative. involution_stable_grothendieck and symplectic_stable_grothendieck do the same with involution Hecke words and symplectic Hecke words, signed_involution_stable_grothendieck with pairs of a strictly decreasing and a strictly increasing word. The calls terminate, and the result does not depend on what earlier calls left in the shared level caches. Arguments that are not of the required kind (signed, not an involution, with a fixed point) raise AssertionError.", "quantifier": "all permutations of any rank, all n, all degree bounds, all cache contents left by generators advanced one after the other and by any number of earlier calls, all set iteration orders", "why_tests_cant": "symmetry of these sums is a theorem (Fomin-Kirillov, Yang-Baxter relations in types A and B) about infinitely many permutations; tests check a few small ones", "anchors": ["permutations.py: Permutation.stable_grothendieck, Permutation.signed_involution_stable_grothendieck, Permutation.symplectic_stable_grothendieck, Permutation.involution_stable_grothendieck, Permutation._symmetrize, Permutation.get_hecke_words, Permutation.get_involution_hecke_words, Permutation.get_symplectic_hecke_words", "words.py: quasisymmetrize, decreasing_zeta, unimodal_zeta"]}
{"id": "C80", "title": "Involution lengths and involution words", "statement": "For an involution w of any rank, w.involution_length is the least length of an involution word of w, get_involution_word() returns a word of that length and from_involution_word turns it back into w; on other permutations get_involution_word raises AssertionError. from_involution_word(word) with strict=True returns a permutation exactly when the word is a shortest involution word of it and None otherwise; with strict=False it multiplies or conjugates letter by letter. For fixed-point-free involutions of 1..n the same holds of fpf_involution_length, get_fpf_involution_word, from_fpf_involution_word (with n the least even number above the letters), and get_fpf_involution_words returns, without repetition, exactly the shortest words, whatever earlier calls left in the shared cache. get_fpf_involution_word recurses forever on the signed fixed-point-free involution (-1).", "quantifier": "all signed involutions of any rank, all words of any length, all histories of earlier calls on fixed-point-free involutions of 1..n, all set iteration orders", "why_tests_cant": "minimality quantifies over all words, and ranks and words are unbounded", "anchors": ["permutations.py: Permutation.involution_length, Permutation.fpf_involution_length, Permutation.get_involution_word, Permutation.from_involution_word, Permutation.get_fpf_involution_word, Permutation.from_fpf_involution_word, Permutation.get_fpf_involution_words"]}
{"id": "C81", "title": "Bruhat covers", "statement": "w.bruhat_covers() yields, each exactly once, the signed permutations of length one less that differ from w by right multiplication by a reflection (exchanging a with b and -a with -b). involution_bruhat_covers and fpf_involution_bruhat_covers, on the other hand, do not satisfy the analogous statement: they raise AttributeError on the reverse permutation of four points, because a deleted word need not be reduced and from_involution_word then returns None.", "quantifier": "every signed permutation of any rank; counterexamples for the involution versions", "why_tests_cant": "the code only tries the one-letter deletions of a single reduced word; that this finds every cover and no cover twice is the strong exchange property", "anchors": ["permutations.py:Permutation.bruhat_covers", "permutations.py:Permutation.involution_bruhat_covers", "permutations.py:Permutation.fpf_involution_bruhat_covers"]}
{"id": "C82", "title": "Transitions and tau", "statement": "tau(i, j) of an involution y of the positive integers returns an involution that differs from y at most at i, j, y(i), y(j), is y itself or longer than y, and is longer whenever y(i) < y(j). The (fpf) involution transition generators yield exactly the indices in their range for which the shortest (fpf) involution word becomes one longer. upper_transitions and lower_transitions, documented as yielding the j with self * transposition(r, j) covering self, never yield anything, on any input, because they conjugate instead of multiplying.", "quantifier": "every involution, every pair of indices; every signed permutation for the refutation", "why_tests_cant": "tau has eight cases with overlapping conditions; emptiness of upper_transitions for every input follows from parity and cannot be settled by running it on examples", "anchors": ["permutations.py:Permutation.tau", "permutations.py:Permutation.upper_transitions", "permutations.py:Permutation.lower_transitions", "permutations.py:Permutation.upper_involution_transitions", "permutations.py:Permutation.lower_involution_transitions", "permutations.py:Permutation.upper_fpf_involution_transitions", "permutations.py:Permutation.lower_fpf_involution_transitions"]}
{"id": "C83", "title": "The enumerators of permutations and involutions yield each object exactly once", "statement": "For every n >= 0: Permutation.all(n) yields every permutation of 1..n exactly once and nothing else, and with signed=True every signed permutation exactly once. Permutation.involutions(n) terminates and yields exactly the involutions of 1..n, once each; with fpf=True exactly those without a fixed point in 1..n (none for odd n); with signed=True exactly the signed involutions. Permutation.fpf_involutions(n) terminates and yields the fixed-point-free involutions once each, whatever order its internal sets are iterated in. With signed=True the fpf flag is ignored for even n: the identity is yielded, which refutes the natural reading of involutions(n, signed=True, fpf=True).", "quantifier": "every n >= 0; every iteration order of the sets of the breadth-first search", "why_tests_cant": "Tests compare counts for small n; that a breadth-first search over code vectors with a seen-set reaches every vector, that vectors and matchings correspond one to one, and that no permutation is yielded twice, are statements for all n.", "anchors": ["permutations.py: Permutation.all, involutions, fpf_involutions, minfpf, reflection_s, transposition"]}
{"id": "C84", "title": "Shifted Hecke insertion is total and gives shifted tableaux", "statement": "For every word of integers and both settings of multisetvalued, InsertionAlgorithm.orthogonal_hecke(word) returns a pair (P, Q) without raising: P is a shifted tableau with one entry per cell, strictly increasing along rows and columns; Q has the same cells, its entries are 1..len(word) each exactly once up to sign, the absolute values increase along rows and columns (in the sense of set-valued tableaux), and no diagonal cell holds a primed (negative) entry. The two settings give the same P, and Q's that differ exactly by the signs off the diagonal. A record compatible with the word renames the entries of Q and keeps their signs; any other record raises AssertionError.", "quantifier": "every word of integers of any length, both modes, every record", "why_tests_cant": "the insertion is a transition system with row, diagonal and column moves, asserts in every branch and indexing into rows; that no branch is ever missing and the shape stays shifted is an invariant over all words", "anchors": ["insertion.py:InsertionAlgorithm.orthogonal_hecke", "insertion.py:InsertionAlgorithm.symplectic_hecke", "insertion.py:FState"]}
{"id": "C85", "title": "Shifted Hecke insertion is invertible", "statement": "For every word of nonnegative integers and both settings of multisetvalued, inverse_orthogonal_hecke applied to the pair returned by orthogonal_hecke(word) returns the word together with its default record (1, ..., len(word)); hence orthogonal_hecke is injective on such words. With negative letters the statement fails: (-1, -1) comes back as (-1, 0).", "quantifier": "every word of nonnegative integers of any length, both modes; a counterexample for negative letters", "why_tests_cant": "the inverse walks every insertion path backwards through seven kinds of transitions and an unbounded loop; tests sample words of small length", "anchors": ["insertion.py:InsertionAlgorithm.inverse_orthogonal_hecke", "insertion.py:InsertionAlgorithm.inverse_symplectic_hecke", "insertion.py:FState.previous", "insertion.py:FState.inverse_insertion"]}
{"id": "C86", "title": "Grassmannian permutations correspond to partitions", "statement": "For non-negative parts in any order, Permutation.get_grassmannian(*mu) is the unsigned permutation whose inverse sends i to i plus the i-th smallest part for i up to len(mu) and increases afterwards; shape() returns the positive parts of mu sorted. For partitions, get_grassmannian and shape are inverse bijections onto the permutations accepted by is_grassmannian, which are the identity and those whose inverse moves 1 and has a single descent. grassmannians(n) yields, without repetition, the permutations of the partitions below the staircase (n-1, ..., 1), among them every accepted permutation of 1..n. Refuted: 's_2 is accepted', 'signed permutations get an answer', 'everything yielded permutes 1..n'.", "quantifier": "every list of non-negative integers, every unsigned permutation, every integer n; concrete witnesses for the refuted readings", "why_tests_cant": "the correspondence is over infinitely many partitions of unbounded size", "anchors": ["permutations.py:Permutation.get_grassmannian", "permutations.py:Permutation.is_grassmannian", "permutations.py:Permutation.grassmannians", "permutations.py:Permutation.shape"]}
{"id": "C87", "title": "Codes and shapes of involutions, and I-Grassmannian involutions", "statement": "For every unsigned involution, involution_code() sums to involution_length() and involution_shape() is a strict partition of involution_length(); on other permutations they raise AssertionError. For a strict partition mu with r parts, get_inv_grassmannian(*mu) exchanges r+1-t and r+mu_t (t = 1..r) and fixes every other point, and involution_shape() returns mu. is_inv_grassmannian() is True exactly when the left ends of the 2-cycles are 1..r for some r and their right ends increase. inv_grassmannians(n) yields, without repetition, the involutions of strict partitions below (n-1, n-3, ...), among them every accepted involution of 1..n. Refuted: 'everything yielded permutes 1..n' and 'a trailing zero part is harmless'.", "quantifier": "every unsigned involution, every strict partition, every integer n; concrete witnesses for the refuted readings", "why_tests_cant": "strictness of the shape is a statement about the nesting depth of all involutions of all sizes", "anchors": ["permutations.py:Permutation.involution_code", "permutations.py:Permutation.involution_shape", "permutations.py:Permutation.get_inv_grassmannian", "permutations.py:Permutation.is_inv_grassmannian", "permutations.py:Permutation.inv_grassmannians"]}
{"id": "C88", "title": "Codes and shapes of fixed-point-free involutions, and FPF-Grassmannian involutions", "statement": "For every fixed-point-free involution of 1..2m, fpf_involution_code() counts in place i the j > i with w(j) < i and w(j) < w(i), sums to fpf_involution_length(), and fpf_involution_shape() is a strict partition of fpf_involution_length(); on any other permutation both raise AssertionError. For a strict partition mu with r parts, get_fpf_grassmannian(*mu) exchanges r+1-t with r+1+mu_t, matches the remaining points, up to the first even number that is at least r+1+mu_1, with neighbours, and fpf_involution_shape() returns mu. fpf_grassmannians(n) raises AssertionError for odd n, and for even n yields, without repetition, the involutions of the strict partitions below (n-2, n-4, ...). Refuted: 'everything yielded permutes 1..n', 'is_fpf_grassmannian() accepts every get_fpf_grassmannian(*mu)' and 'is_fpf_grassmannian() accepts only involutions'.", "quantifier": "every canonical permutation, every strict partition, every integer n; concrete witnesses for the refuted readings", "why_tests_cant": "strictness of the shape and termination of the matching loop are statements about all sizes", "anchors": ["permutations.py:Permutation.fpf_involution_code", "permutations.py:Permutation.fpf_involution_shape", "permutations.py:Permutation.get_fpf_grassmannian", "permutations.py:Permutation.is_fpf_grassmannian", "permutations.py:Permutation.fpf_grassmannians"]}
{"id": "C89", "title": "Decompositions of shifted shapes, rims and ribbons are exact", "statement": "For a strict partition mu: Partition.decompose_shifted_shape_by_vertical_strips(mu) lists, once each, the strict nu such that mu/nu has at most one box in each row; decompose_shifted_shape_by_rims(mu) lists, once each, the strict nu such that mu/nu is a rim (no two boxes consecutive on a diagonal), the same nu as shifted_ribbon_complements(mu); rims(mu, bound) yields, once each, the sorted boxes of nu/mu for the strict nu such that nu/mu is a rim with at most bound boxes in the first row, and raises AssertionError if mu is not strictly decreasing. shifted_ribbon(alpha) is the connected rim with alpha_i boxes in row i. Refuted: 'shifted_ribbons(n) enumerates shifted ribbons' -- it raises IndexError for every n >= 1.", "quantifier": "every strict partition, every bound, every composition, every n", "why_tests_cant": "exactness of an enumeration is a statement about all shapes of all sizes", "anchors": ["partitions.py:Partition.decompose_shifted_shape_by_vertical_strips", "partitions.py:Partition.decompose_shifted_shape_by_rims", "partitions.py:Partition.rims", "partitions.py:Partition.shifted_ribbon", "partitions.py:Partition.shifted_ribbons"]}
{"id": "C90", "title": "KOG tableaux are enumerated exactly and counted by the recursion", "statement": "For a strict partition mu and p >= 0, Tableau.KOG(p, mu) yields, once each and for every iteration order of the sets of corners, the KOG tableaux of content p: fillings of a shifted rim nu/mu with entries exactly 1..p, strictly increasing along rows and down columns, in which each entry is <= all entries south-west of it or >= all of them. KOG_counts(nu, mu, p), which peels the end of the rim and never builds a tableau, is the number of such tableaux of shape nu/mu; KOG_by_shape(p, mu) groups them by nu, with exactly the shapes that have one, and KOG_counts_by_shape(p, mu) is the dict of the sizes of its values. For p < 0 KOG raises AssertionError and KOG_counts is 0.", "quantifier": "every strict mu (and nu with nu/mu a rim), every p, every iteration order of a Python set", "why_tests_cant": "two different algorithms have to agree on every rim; the number of fillings grows exponentially in p", "anchors": ["tableaux.py:Tableau.KOG", "tableaux.py:Tableau.KOG_counts", "tableaux.py:Tableau.KOG_by_shape", "tableaux.py:Tableau.KOG_counts_by_shape", "partitions.py:Partition.rim_terminal_part"]}
{"id": "C91", "title": "KLG tableaux are enumerated exactly and counted by the recursion", "statement": "For a strict partition mu and p >= 0, Tableau.KLG(p, mu) yields, once each and for every iteration order of the sets of corners, the KLG tableaux of content p: fillings of a shifted rim nu/mu by primed and unprimed numbers whose absolute values are exactly 1..p, strictly increasing along rows and down columns in the order 1' < 1 < 2' < ..., unprimed on the main diagonal, in which a primed entry is <= all entries south-west of it and an unprimed one >= all of them. KLG_counts(nu, mu, p) is the number of such tableaux; KLG_by_shape and KLG_counts_by_shape agree with each other as for KOG. Refuted: 'KLG yields nothing for p < 0' -- KLG(-1, (3, 1)) yields a tableau, although KLG_counts is 0 for every negative p.", "quantifier": "every strict mu (and nu with nu/mu a rim), every p, every iteration order of a Python set", "why_tests_cant": "two different algorithms have to agree on every rim; the number of fillings grows exponentially in p", "anchors": ["tableaux.py:Tableau.KLG", "tableaux.py:Tableau.KLG_counts", "tableaux.py:Tableau.KLG_by_shape", "tableaux.py:Tableau.KLG_counts_by_shape", "partitions.py:Partition.rim_terminal_part"]}
{"id": "C92", "title": "crystal operators on set-valued tableaux form a crystal", "statement": "For a semistandard tableau T of any skew shape, set-valued or not, with entries at most n, T.f_crystal_operator(i, multisetvalued=False) and T.e_crystal_operator(i, multisetvalued=False) never raise. f changes T by the signature rule: read the entries i and i+1 by columns from left to right, each from bottom to top and each cell from its largest entry; the last unbracketed i becomes an i+1, except that when the cell to its right also holds an i, that i is deleted instead and i+1 is added; e is the mirror image. For 1 <= i < n the result is again semistandard of the same shape (singletons stay singletons) with one i turned into an i+1; f and e are inverse to each other; the number of times f applies minus the number of times e applies is the number of i's minus the number of (i+1)'s. TableauCrystalGenerator(mu, n).f_crystal_operator(x, i) therefore always finds exactly one index and never fails its assertion. Refuted: 'istrings lists the strings of the generator' -- it calls e_crystal_operator with the default multisetvalued=True, so for mu=(1,), n=2 the string of {1,2} is missing.", "quantifier": "every skew shape, every n, every semistandard (set-valued) tableau, every i, every order of the generator's list", "why_tests_cant": "closure, invertibility and string lengths depend on the whole tableau; tests reach only a few shapes", "anchors": ["tableaux.py:Tableau.e_crystal_operator", "tableaux.py:Tableau.f_crystal_operator", "crystals.py:TableauCrystalGenerator.f_crystal_operator", "crystals.py:CrystalMixin.istrings"]}
{"id": "C93", "title": "crystal operators on multiset-valued tableaux form a crystal", "statement": "For a multiset-valued tableau whose columns start in row 1 and increase strictly downwards, crystal_reading_word() gives one tuple per column: the smallest entries of its cells, strictly decreasing, followed by its other entries, weakly increasing. Tableau.from_crystal_reading_word inverts it, and every tuple of such words is the reading word of the tableau built from it. For a semistandard multiset-valued tableau T of a partition shape (rows weakly increasing, columns strictly), T.f_crystal_operator(i) and T.e_crystal_operator(i) (default multisetvalued=True) never raise; they return None or the semistandard multiset-valued tableau of the same shape, with the same number of entries in each column, whose reading word follows the signature rule. f and e are inverse to each other, f changes exactly one entry i into i+1 (possibly in the cell below), and the number of times f applies minus the number of times e applies is the number of i's minus the number of (i+1)'s. Refuted: the same closure for shifted shapes, e.g. rows (1,1),(.,2) with i=1.", "quantifier": "every partition shape, every multiset-valued tableau with integer entries, every i; for the reading word every column-initial shape, shifted ones included", "why_tests_cant": "an entry can move between cells, so closure and inversion depend on whole columns; the tests look at a few small tableaux", "anchors": ["tableaux.py:Tableau.crystal_reading_word", "tableaux.py:Tableau.from_crystal_reading_word", "tableaux.py:Tableau.e_crystal_operator", "tableaux.py:Tableau.f_crystal_operator"]}
{"id": "C94", "title": "atoms and involution words of involutions are enumerated exactly", "statement": "For every unsigned involution w: w.get_atoms() returns each atom of w exactly once, an atom being the product of a shortest involution word of w; w.get_min_atom() returns one of them; list(w.get_involution_words()) is each shortest involution word of w exactly once. This holds whatever earlier calls of these methods and of get_reduced_words, on any arguments, left in the module caches. The atoms are exactly the unsigned permutations whose inverse, in one-line notation, lists the larger number of each cycle first, has no number strictly between the two in value between them in position, and lists non-nested cycles in order. For every fixed-point-free involution w of 1..n, w.get_fpf_atoms() returns each product of a shortest symplectic word exactly once. get_atoms_d() returns the same atoms as get_atoms() on unsigned involutions, but (refuted) not once each: Permutation(2,1,4,3).get_atoms_d() lists its only atom twice. Non-involutions (for get_fpf_atoms: anything but an unsigned fixed-point-free involution) raise AssertionError.", "quantifier": "every unsigned involution of every size, every history of calls, every set iteration order", "why_tests_cant": "completeness of a search by local moves from one starting atom is a connectivity theorem; tests compare small symmetric groups", "anchors": ["permutations.py:Permutation.get_atoms", "permutations.py:Permutation._get_atoms", "permutations.py:Permutation.get_min_atom", "permutations.py:Permutation.get_involution_words", "permutations.py:Permutation.get_fpf_atoms", "permutations.py:Permutation.get_atoms_d"]}
{"id": "C95", "title": "Little bumps turn reduced words into reduced words, one to one", "statement": "For every reduced word and every permutation y obtained as the product of the word without one of its letters, when that shorter word is reduced too: little_bump(word, y) terminates without an exception and returns a reduced word of the same length, letter by letter at least as large, the deleted letter strictly larger, with descents at the same places, and again with a deletion that is a reduced word of y. For fixed y different words have different bumps. When all letters are >= 1 and the word spells y*(a b) with a < b, the result spells y*(b c) for some c > b. little_bump(word, j, k) returns the word unchanged unless multiplying by the transposition of j and k lowers the length by exactly one, and otherwise bumps as above with b = max(j, k). A word that is not reduced raises AssertionError; a y that is no deletion returns the word. Refuted: the exception branch is reachable, little_bump((1,2,1), identity) raises Exception because the deletion is not reduced.", "quantifier": "every reduced word of every length, every permutation y, all positions j, k >= 1", "why_tests_cant": "termination and injectivity of an unbounded rewriting loop; tests run it on words of a few small permutations", "anchors": ["permutations.py:Permutation.little_push", "permutations.py:Permutation.little_bump"]}
{"id": "C96", "title": "Little bumps turn shortest involution words into shortest involution words, one to one", "statement": "For every shortest involution word with letters >= 1 and every involution y one of whose shortest involution words is the word without one letter: involution_little_bump(word, y) terminates without an exception and returns a shortest involution word of the same length, letter by letter at least as large, the deleted letter strictly larger, with descents at the same places, and again with a deletion that is a shortest involution word of y. For fixed y different words have different bumps. involution_little_bump(word, j, k) bumps at some y of length one less that has an atom a*(j k), a an atom of the word's involution, whatever order the atoms are listed in and whatever is cached, and returns the word unchanged exactly when there is no such y; such a y is always a deletion of the given word. A word that is not shortest raises AssertionError; a y that is no deletion returns the word. Refuted: the exception branch is reachable, involution_little_bump((1,3,2,1), y) raises Exception for y = (1 2)(3 4) times s_1, the deletion of the letter 2, which is not shortest.", "quantifier": "every shortest involution word of every length, every permutation y, all positions j, k >= 1, every iteration order and every history of the atom cache", "why_tests_cant": "termination and injectivity of an unbounded rewriting loop over infinitely many involutions; tests run it on involutions of at most six points", "anchors": ["permutations.py:Permutation.involution_little_push", "permutations.py:Permutation.involution_little_bump"]}
{"id": "C97", "title": "is_semistandard and is_standard decide, and standardize numbers the entries", "statement": "For a tableau with nonempty cells and nonzero entries (k' written -k, several letters per cell allowed), is_semistandard(diagonal_primes) never raises and returns True exactly if letters of neighbouring cells weakly increase in 1' < 1 < 2' < 2 < ..., no primed letter occurs in two neighbouring cells of a row, no unprimed letter in two neighbouring cells of a column, and, without diagonal_primes, no diagonal cell holds a primed letter. is_standard returns True exactly if in addition (without diagonal primes) the absolute values of the N entries are 1, ..., N, each once. standardize returns a tableau with the same cells whose entries are, up to sign, 1, ..., N, each once, primed where the letter it stands for is primed, where larger numbers stand for larger letters or, for the same letter, stand in the same or a later column (unprimed) respectively row (primed). For a semistandard tableau the result is strictly increasing in absolute value along rows and columns, it is semistandard, and is_standard() holds of it if there are no primes on the diagonal. Two tableaux with the same standardisation and equally many entries of each absolute value are equal.", "quantifier": "all tableaux (finite maps from cells to nonempty sorted tuples of nonzero integers), both values of diagonal_primes", "why_tests_cant": "Ties between equal letters are broken by column or row, and the claim that this never creates a descent concerns every semistandard filling of every shape.", "anchors": ["tableaux.py: Tableau.is_semistandard, is_standard, standardize"]}
{"id": "C98", "title": "Groups of valued-set tableaux are found exactly, and is_semistandard decides", "statement": "Let V be a valued-set tableau: nonzero entries, one per cell, and labels 0 or 1, where a cell labelled 1 has the entry of the cell to its right (unprimed entry) or of the cell in the previous row (primed entry). The cells with an unprimed (primed) entry fall into disjoint horizontal (vertical) groups. get_horizontals(x) for x > 0 returns the leftmost and rightmost cells of the groups with entry x, each group once, ordered by row and then from right to left; get_verticals(x) for x < 0 the first and last cells of the vertical groups, ordered by column from right to left and then by row; for any other sign both raise an AssertionError. is_group_end, is_group_start hold exactly for the last respectively first cell of a group; singletons(*args) are exactly the groups with one cell (and absolute value of the entry among those of args, if any are given), each once; primed_groups(*args) is the number of vertical groups, diagonal_primes() the number of diagonal cells with a primed entry, primed_diagonal_cells(*args) the increasing list of their rows by absolute value; is_highest_weight() holds exactly if all labels are 0; is_semistandard() returns True exactly if rows and columns weakly increase in 1' < 1 < 2' < 2 < ... with no primed letter twice in a row and no unprimed letter twice in a column. None of these raises.", "quantifier": "all tableaux with single nonzero entries, all groupings of them, all arguments; shifted, straight and arbitrary sets of cells", "why_tests_cant": "The grouping is arbitrary among the exponentially many of every tableau of every shape, and the walks along groups are unbounded loops.", "anchors": ["vst.py: ValuedSetTableau.get_horizontals, get_verticals", "vst.py: is_group_end, is_group_start, is_singleton, singletons", "vst.py: diagonal_primes, primed_diagonal_cells, primed_groups", "vst.py: is_highest_weight, is_semistandard"]}
{"id": "C99", "title": "Removing primes from valued-set tableaux, and hinges", "statement": "For a valued-set tableau V (nonzero entries, one per cell, and a valid grouping), unprime() and unprime_diagonal() never raise, keep the cells and the grouping, replace the entry x by |x| exactly in the groups consisting of one cell (respectively of one diagonal cell), and are idempotent. If V is semistandard of shifted shape mu/nu with entries up to n, so is unprime_diagonal(V), with the same weight; the entries changed are in diagonal cells labelled 0; and every U with unprime_diagonal(U) = U is the image of exactly 2^k such V, where k is the number of diagonal cells labelled 0. In contrast, unprime(V) need not be semistandard: for the shape (2, 1) with entries 1, 2', 2' and labels 0 it has 2 twice in a column. In a semistandard V of shifted shape the absolute values increase strictly along the diagonal, so the assertion in hinge(i) never fails for i > 0 and hinge(i) returns the unique row r such that (r, r), (r, r+1), (r+1, r+1) have entries of absolute value i or i+1, and None if there is none; for i <= 0 it raises an AssertionError.", "quantifier": "all groupings of all tableaux with single nonzero entries; for the statements on shifted shapes all strict partitions mu, nu, all n, all valued-set tableaux", "why_tests_cant": "Statements about every tableau with every grouping, and about sizes of fibres of a map on an unbounded family of finite sets.", "anchors": ["vst.py: ValuedSetTableau.unprime, unprime_diagonal, diagonal_singletons, singletons", "vst.py: ValuedSetTableau.hinge"]}
{"id": "C100", "title": "Interstandard valued-set tableaux, and the test for lying in the same group", "statement": "For strict partitions mu and nu, ValuedSetTableau.all_interstandard(mu, nu) never raises and returns, each exactly once, all pairs of a filling of the shifted skew shape mu/nu by the letters 1', 2', 1, 2 and a valid grouping of it which are interstandard: in the order 1' < 2' < 1 < 2 rows increase weakly with no primed letter repeated and columns increase weakly with no unprimed letter repeated, except that on the diagonal a row may begin 1, 2' if the next diagonal cell holds 1, or 2' labelled 1, and a column may end 1, 2' if the previous diagonal cell holds 2', or 1 labelled 1. The method is_interstandard() decides exactly this condition for every grouped tableau in the four letters, and is True on everything all_interstandard returns. If mu is not strict, an AssertionError is raised. in_same_group(i, j, i, j+1) is True exactly if the two cells are in a common horizontal group, in either order of the arguments. For vertical neighbours it is wrong: in_same_group(i, j, i+1, j) answers the question for the cells (i-1, j) and (i, j), and there is a tableau with two cells of one vertical group for which it returns False.", "quantifier": "all strict partitions mu, nu (nu not necessarily inside mu); all groupings of all tableaux with single nonzero entries for in_same_group and, with entries among the four letters, for is_interstandard; all iteration orders of sets", "why_tests_cant": "Completeness of an enumeration that changes tableaux at the diagonal, over an unbounded family of shapes; tests compare only a few shapes.", "anchors": ["vst.py: ValuedSetTableau.all_interstandard, _interstandard", "vst.py: ValuedSetTableau.is_interstandard", "vst.py: ValuedSetTableau.in_same_group"]}
{"id": "C101", "title": "Hecke insertion is a bijection onto pairs of tableaux", "statement": "Take any increasing tableau P of partition shape with entries >= 0 and any tableau Q of the same shape with entries > 0 that is semistandard multiset-valued (multisetvalued=True) or semistandard set-valued (multisetvalued=False). Then inverse_hecke(P, Q) never raises and returns a word w of letters >= 0 and a compatible record r, consisting of the entries of Q, with hecke(w, r) = (P, Q); no other pair of such a word and compatible positive record is sent to (P, Q). For a standard set-valued Q with entries 1, ..., k the same holds with words of length k and no record. If P has a negative entry this fails: there are such P and Q for which hecke(inverse_hecke(P, Q)) differs from (P, Q).", "quantifier": "all increasing tableaux with nonnegative entries, all semistandard set-valued and multiset-valued tableaux of the same shape, of any size", "why_tests_cant": "C45 says that no information is lost; that every pair is reached is an existence statement about infinitely many pairs, which no set of example words settles.", "anchors": ["insertion.py: InsertionAlgorithm.hecke, InsertionAlgorithm.inverse_hecke", "insertion.py: HState.inverse_insertion"]}
{"id": "C102", "title": "Hecke insertion keeps the Demazure product", "statement": "For every word w of integers, w is equivalent to the row reading word of its insertion tableau P = hecke(w)[0] under the relations aa = a, ab = ba for non-adjacent a and b, and a(a+1)a = (a+1)a(a+1). With multisetvalued=False the tableau comes back transposed and the same holds for its transpose. Hence, for letters >= 1, w is a Hecke word of exactly the same permutation as the row reading word of P, and two words with the same insertion tableau are Hecke words of the same permutation. The converse does not hold: 31 and 13 are equivalent and have different insertion tableaux.", "quantifier": "all words of integers, all records, both modes; for the statement about permutations all words with letters >= 1", "why_tests_cant": "The equivalence of w and the reading word of P is a chain of relations whose length grows with w; examples check finitely many words.", "anchors": ["insertion.py: InsertionAlgorithm.hecke", "insertion.py: HState.insert", "tableaux.py: Tableau.row_reading_word", "permutations.py: Permutation.get_hecke_words"]}
{"id": "C103", "title": "The crystal operator on factorizations always finds its image", "statement": "For WordCrystalGenerator(oneline, k, length, decreasing): the elements are exactly the pairs of a Hecke word of the permutation of the given length and a record with values 1..k that is compatible with it, each listed once. For every element index and every 0 <= i < k, f_crystal_operator(index, i) does not raise: its assertion that exactly one element has the new pair of tableaux always holds. It returns None exactly when the crystal operator on the recording tableau does, and otherwise the index of the one element with the same insertion tableau and the changed recording tableau. No two i-arrows end in the same element, and an i-arrow ends in an element exactly when the raising operator applies to the recording tableau of that element.", "quantifier": "all one-line notations of permutations, lengths, numbers of factors, both monotonicity modes, all iteration orders of Python sets, all earlier uses of the Hecke word cache", "why_tests_cant": "That the image is in the finite list of elements needs that Hecke insertion is a bijection onto pairs of tableaux and that the crystal operators keep the recording tableau semistandard; a test sees only particular permutations.", "anchors": ["crystals.py: WordCrystalGenerator.__init__", "crystals.py: WordCrystalGenerator.factorizations", "crystals.py: WordCrystalGenerator.factorization_tuple_to_array", "crystals.py: WordCrystalGenerator.f_crystal_operator", "insertion.py: InsertionAlgorithm.hecke", "insertion.py: InsertionAlgorithm.inverse_hecke", "permutations.py: Permutation.get_hecke_words"]}
{"id": "C104", "title": "Unpriming the diagonal terminates and loses no letter", "statement": "For every set-valued tableau with nonempty cells and nonzero entries, InsertionAlgorithm.unprime_diagonal(t) terminates without an error. It keeps every cell of t, the letters of t up to their primes (with multiplicity), and adds no prime. In the result every diagonal cell (k,k), as long as (1,1), ..., (k,k) are all present, has no primed letter, or exactly one, which is larger than all other letters of the cell. A tableau whose diagonal already has this form comes back unchanged, so a second call changes nothing. setvalued_column_insert(t, s, j), for a nonempty set s, changes only column j, adds at most the next cell of the column, returns None exactly if column j was empty in row 1, and otherwise returns the letters bumped: the letters of t and s together are the letters of the new tableau and those returned. If the column is ordered and no unprimed letter is repeated in s, the new column is ordered and no unprimed letter is repeated in the returned tuple.", "quantifier": "all tableaux with nonempty cells and nonzero entries, all nonempty tuples of nonzero integers, all columns j >= 1; for the order of a column, all columns whose cells are rows 1..n", "why_tests_cant": "The while loops end only because of the finitely many cells, and the two passes of the insertion cut boxes at computed positions (val[len(add):]), so that no letter is lost for any sizes of cells and sets cannot be seen from examples.", "anchors": ["insertion.py: InsertionAlgorithm.unprime_diagonal", "insertion.py: InsertionAlgorithm.setvalued_column_insert", "tableaux.py: Tableau.set"]}
{"id": "C105", "title": "skew_key is a complete invariant of skew shapes up to translation", "statement": "For all mu and nu whose parts nu[i] are nonnegative, Partition.skew_key(mu, nu, shifted) terminates without an error; its value lists, in strictly increasing order and without repetition, the positions of the skew shape moved by some number of rows and columns, all coordinates at least 1. Unshifted: two skew shapes have the same key exactly if one is a translate of the other. Shifted: two skew shapes have the same key exactly if one is the other moved along the main diagonal, or neither has a box on the main diagonal and one is a translate of the other.", "quantifier": "all lists mu, all lists nu with nonnegative parts, both values of shifted, and all pairs of such skew shapes", "why_tests_cant": "The key is used to recognise shapes that were already examined (tests/test_skew.py), so one collision between two shapes that are not translates would hide a shape; the claim is about all pairs of shapes of any size.", "anchors": ["partitions.py: Partition.skew_key", "partitions.py: Partition.skew"]}
{"id": "C106", "title": "from_skew recovers a skew shape up to moving it to the left", "statement": "Let positions be the nonempty set of boxes of a skew shape lam/mu, with mu contained in lam, of partitions (strict partitions if shifted). Partition.from_skew(positions, shifted) terminates and returns a pair (nu', mu') of partitions of the same kind with mu' contained in nu' and fewer parts, whose skew shape is positions moved c columns to the left for some c >= 0, and c = 0 exactly if some row starts in the first place. Unshifted, the new pair has the same skew_key as lam/mu. Shifted, the new shape always has a box on the main diagonal, and the key is the same exactly if the given shape has one. The result does not depend on the order of the set. On the empty set the function never returns.", "quantifier": "all pairs of (strict) partitions mu contained in lam, all orders of the set of positions", "why_tests_cant": "Missing rows are filled in from below and the last loop ends only because the last row is not empty; no finite set of shapes shows that the filled rows always give partitions.", "anchors": ["partitions.py: Partition.from_skew", "partitions.py: Partition.skew", "partitions.py: Partition.skew_key"]}
{"id": "C107", "title": "shifted_setvalued_copieri lists exactly the one-letter set-valued tableaux by size", "statement": "For strict partitions nu and lam and either value of diagonal_primes, Tableau.shifted_setvalued_copieri(nu, lam, diagonal_primes) terminates and returns a dict with one key per size. The list under r is not empty, has no repetition and contains exactly the semistandard shifted set-valued tableaux with letters 1' and 1 (with no primed letter on the diagonal unless diagonal_primes) and r entries whose shape is nu/mu for some mu contained in nu that arises from lam by removing a set of its shifted corners. Every such tableau is listed, under its number of entries.", "quantifier": "all strict partitions nu and lam, both flags, all iteration orders of the sets involved", "why_tests_cant": "The tableaux of many inner shapes are merged into one dict; that none is lost, repeated or filed under a wrong size has to hold for every pair of shapes.", "anchors": ["tableaux.py: Tableau.shifted_setvalued_copieri", "tableaux.py: Tableau.semistandard_shifted_setvalued", "partitions.py: Partition.remove_shifted_inner_corners"]}
{"id": "C108", "title": "the refined dual polynomials count tableaux by diagonal and add up to the dual polynomials", "statement": "For strict partitions mu and nu and n variables, SymmetricPolynomial._slow_refined_dual_stable_grothendieck_p and _q terminate and return a Vector with distinct tuples as keys and no zero value. At each tuple, the coefficient of the monomial of a partition alpha in the value (zero if the tuple is not a key) is (-beta)^(|mu|-|nu|-|alpha|) times the number of marked reverse plane partitions of shape mu/nu and weight alpha (with no unprimed diagonal letters for p) whose diagonal, up to the first missing box, has the absolute values of that tuple. Every tableau belongs to exactly one tuple, and the values of all keys add up to dual_stable_grothendieck_p and _q.", "quantifier": "all strict partitions mu and nu, all numbers of variables, all iteration orders of the sets involved", "why_tests_cant": "The values are computed without the symmetry check and divide negative powers of beta back out; tests compare one conjectural identity on small shapes only.", "anchors": ["symmetric.py: SymmetricPolynomial._diag_vector", "symmetric.py: SymmetricPolynomial._slow_refined_dual_stable_grothendieck_p", "symmetric.py: SymmetricPolynomial._slow_refined_dual_stable_grothendieck_q", "symmetric.py: SymmetricPolynomial._slow_vectorize"]}
{"id": "C109", "title": "the shifted growth diagram exists and is a table of strict partitions growing by rook strips and single boxes", "statement": "For a set of positions with at most one position in every column (in particular for every word), and sizes m and n that are given or default to the largest column and row, Partition.shifted_growth_diagram terminates without an exception and returns (n+1) x (m+1) tables that do not depend on the iteration order of sets. The first row and column are empty, every entry is a strict partition, and each entry contains the one above it with a difference that has no two boxes in one row or in one column. If column j has a position in rows 1 to i then the entry at (i, j) either has exactly one box more than its left neighbour, and no corner label, or equals it, and the corner label is the row (the column if the edge label is True) of a box of it that ends its row and its column. Otherwise the entry equals its left neighbour and carries no label.", "quantifier": "all sets of positions with at most one per column, all words, all sizes m and n that are not negative, all iteration orders of the sets involved", "why_tests_cant": "The local rule has seventeen cases with assertions and raises between them, and whether the data of one cell meets the expectations of the next depends on the whole history of the diagram.", "anchors": ["partitions.py: Partition.shifted_growth_diagram", "partitions.py: Partition.add_box_to_column", "partitions.py: Partition.add_box_to_row", "partitions.py: Partition.union"]}
{"id": "C110", "title": "the tableaux read off the shifted growth diagram of a word have its shape and a standard recording tableau", "statement": "For a word of positive letters with largest letter n and length m, Tableau.from_shifted_growth_diagram applied to the tables of Partition.shifted_growth_diagram terminates without an exception and returns tableaux p and q that do not depend on the iteration order of sets, both of the shifted shape of the last entry of the diagram. Each box of p holds one letter from 1 to n, the boxes with letters at most k form the shape of the last entry of row k, and letters strictly increase along rows and columns. Each box of q holds at least one letter, the letters of q are 1 to m, each once up to the sign, which is negative exactly if the edge label in the last row is True; the boxes with letters up to k in absolute value form the shape of entry k of the last row, and absolute values strictly increase along rows and columns from each letter of a box to each letter of the next. The letter with absolute value k is in a box that ends its row and its column in the shape of entry k of the last row, in the row (the column if the edge label is True) that the corner label of this entry names, if there is one.", "quantifier": "all words of positive letters, all iteration orders of the sets involved", "why_tests_cant": "That a letter without a new box finds a box of q at the named row or column, and that this box is where it belongs, depends on the whole diagram; tests look at a few words.", "anchors": ["tableaux.py: Tableau.from_shifted_growth_diagram", "tableaux.py: Tableau.last_box_in_row", "tableaux.py: Tableau.last_box_in_column", "tableaux.py: Tableau.add", "partitions.py: Partition.shifted_growth_diagram"]}
{"id": "C111", "title": "shifted growth diagrams are local, and their tableaux are compatible with prefixes and with leaving out large letters", "statement": "The part of Partition.shifted_growth_diagram with at most N rows and M columns only depends on the ones of the dictionary in these rows and columns: it is the diagram with these sizes of every dictionary that has the same ones there. Every word of positive letters has exactly one pair (p, q) of tableaux read off its diagram by Tableau.from_shifted_growth_diagram, whatever the iteration order of sets. The recording tableau q of the first r letters of a word is the recording tableau of the word without the letters greater than r in absolute value, signs included. The tableau p of the subword of the letters at most k is the tableau p of the word without the letters greater than k.", "quantifier": "all dictionaries, sizes and iteration orders for the first part; all words of positive letters, all prefixes, all bounds k at least 0", "why_tests_cant": "A rule that looks at cells too far away, or that does something in columns without a one, would agree with the expected diagrams on most small words; the claim compares pairs of words of any length.", "anchors": ["partitions.py: Partition.shifted_growth_diagram", "tableaux.py: Tableau.from_shifted_growth_diagram"]}
{"id": "C112", "title": "forward and backward transitions of valued-set tableaux regroup cells and keep the weight", "statement": "For a valued-set tableau with nonzero entries (of any shape, semistandard or not) and k > 0, backward_transition(k) returns without an exception, and forward_transition(k) returns or raises AssertionError. The result is again a valid valued-set tableau: it has the same boxes, the entries other than k and -k-1 (that is (k+1)') and their grouping are unchanged, the boxes with entries k and -k-1 are redistributed among these two entries, and for every entry the number of groups is the same as before, so the weight does not change. For k <= 0 both raise AssertionError.", "quantifier": "all entry and grouping tableaux that form a valued-set tableau with nonzero entries, all integers k", "why_tests_cant": "The moves exchange cells between a row group and a column group, and one group can take part in many moves; that no move ever loses, doubles or overwrites a cell, and that the validity check of the constructor always holds for the result, is a statement about all sequences of moves.", "anchors": ["vst.py: ValuedSetTableau.forward_transition", "vst.py: ValuedSetTableau.backward_transition", "vst.py: ValuedSetTableau.get_verticals", "vst.py: ValuedSetTableau.get_horizontals", "vst.py: ValuedSetTableau.__init__"]}
