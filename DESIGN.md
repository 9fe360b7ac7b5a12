# Formal model of emarberg/stable-grothendieck in Rocq (Coq 8.16.1)

## Layout

* `properties.jsonl` – the properties C01…; `MANIFEST.json` – status and theorem names.
* `rocq/theories/PyBase.v` – the Python fragments shared by all models (results with
  exceptions, tuples as lists, `range`, slices, insertion-ordered dictionaries as
  association lists, sets as duplicate-free lists).
* `rocq/theories/M_*.v` – the model, one file per Python module (or part of it). Only
  computable definitions; each carries the file and line range it transcribes and states
  every simplification.
* `rocq/theories/S_*.v` – small independent specifications (what "partition", "cell",
  "horizontal strip", "semistandard", "rational span", "reduced word" … mean). They do not
  mention the model.
* `rocq/theories/L_*.v` – lemmas and proofs.
* `rocq/theories/P_*.v` – the property theorems, each closed by `exact`, each followed by
  `Print Assumptions`, plus `Example`s showing that the hypotheses are satisfiable by
  concrete non-trivial data.

## Conventions of the model

* Python `int` is `Z` (unbounded in both). Tuples and lists are `list`. `None` is `None`.
* An exception / failing `assert` / out-of-range index is the value `Err` of the result
  type. Where the code never raises on the stated domain, the theorem says so.
* `dict` is an association list in insertion order (Python >= 3.7). `set` is a list; when the
  code's result could depend on the iteration order, the model takes the order (or the
  choice function) as a parameter and the theorem quantifies over it.
* Generators are modelled by the list of values they yield when fully consumed. Where
  abandonment or interleaving matters (shared caches), a generator is modelled as an
  explicit state machine over the shared cache and theorems quantify over histories.
* `while` loops whose termination is not structural are modelled with fuel; running out of
  fuel is an explicit error and a theorem shows that the fuel used by the model suffices.

### Little bumps (C95)

`L_Little1.v` works with words up to equality of their products. Strong exchange (from C81) gives, for a letter inserted
into a reduced word, either a reduced word or a second letter with the same deletion; three positions can never have equal
reduced deletions, and two equal deletions make a word not reduced. `L_Little2.v` runs the loop: the product y of the word
without the marked letter is invariant, so every unmarked letter stays below the rank of y and the sum of the letters bounds
the number of rounds; uniqueness of the second letter makes each push reversible, which gives injectivity; comparing
adjacent letters with the marked one counted half larger is invariant, which gives the descents. `L_Little3.v` follows the
wire b of the marked crossing.

### Little bumps of involution words (C96)

`L_LittleGen.v` repeats the run of `L_Little2.v` for any notion of product and of reduced word that has the exchange property. The exchange property of involution words comes from the Bruhat order: `L_IBruhat.v` writes the order by rank functions, on which the step of an involution word is a composition of two monotone operators (minima up, maxima down); monotonicity gives the lifting property and that comparable involutions of equal length are equal. `L_ILittle1.v` derives that every involution just below is a deletion and that a letter inserted into a shortest word leaves a shortest word or a second letter with the same deletion; equal deletions contradict the ascents of shortest words. `P_ILittle.v` adds the atoms of C94 for the form with two positions.

### Standardisation (C97)

The loop of `is_semistandard` compares the largest entry of a cell with the smallest entry of each neighbour; `row_test` and `col_test`
show that this one comparison is equivalent to the comparison of all pairs. `standardize` sorts the entries by a key; the order is total
and transitive, so the sorted list is strongly sorted, and the tableau built by `add` holds in each cell the signed positions of its
entries (`tadds`, shared with Hecke insertion). The order of neighbours and the reconstruction from the weight are proved from the
specification `standardization_of` alone.

### Groups of valued-set tableaux (C98)

A group is specified (`row_group`, `column_group` in S_VST.v) as a maximal run of cells with the same entry whose labels say that they
continue. The walk of `get_horizontals` and `get_verticals` from the cell of label 0 along cells of label 1 is analysed once for a
partial step function with an inverse (`gwalk_ok`, `reach`, `segment_unique` in L_VST.v): the walk stops because the cells reached are
distinct cells of the tableau, and two cells of label 0 never reach the same cell. All other methods of C98 are read off from these
groups.

### Removing primes, hinges (C99)

Both methods change entries cell by cell, so they are described by one function `rec f T` that applies f to the entry of each cell; a
condition `keeps f` (no linked pair of cells is changed) makes the grouping survive. For shifted shapes a diagonal cell is always the
first of its group, its neighbours to the left and in the next row are not cells, and the row and column conditions do not see the sign
of an entry there. The fibre of `unprime_diagonal` is listed by the subsets of the diagonal cells labelled 0. Hinges: along
(r, r), (r, r + 1), (r + 1, r + 1) the absolute value increases, and it cannot stay the same twice.

### Interstandard tableaux (C100)

A shifted skew shape that carries an interstandard tableau has at most two diagonal cells in sequence between which anything can
happen: three would force the letters 1', x, y, 2 along (r, r + 1), (r, r + 2), (r + 1, r + 2) (`no_three`). The enumeration starts from
the tableaux without exceptions (`base`), obtained from semistandard tableaux in -1, -2, 2, 3 by renaming letters, which preserves the
conditions and the valid groupings (`adj_over`). `extra1` and `extra2` show that the changed tableaux are interstandard; `complete`
undoes the change: the neighbour of the exceptional cell is forced through the cell above it. `in_same_group` for vertical neighbours
looks at the label of the wrong cell (`C100_same_column_refuted`).

### Hecke insertion is onto (C101)

The relation `Ins` of L_Insertion3 describes one insertion row by row. `pull` takes one row step back: the letter entering row i + 1
determines the column and the letter that entered row i. `unadd` and `unstop` start this at any corner, for a last step that adds the
corner and for one that leaves the shape alone. So every increasing tableau with a chosen corner and kind of last step comes from a
smaller one and a letter (`unstep`), and removing the largest recorded value (`QI_unpush`) gives an induction on the number of recorded
values (`onto_core`). A semistandard recording tableau is numbered by value, then column (L_HeckeOnto3); the Pieri properties of
consecutive insertions, which are equivalences, make its values a compatible record.

### Hecke insertion and the 0-Hecke monoid (C102)

`hecke_equiv` (S_HeckeEquiv) is the congruence generated by aa = a, ab = ba for |a - b| > 1 and a(a+1)a = (a+1)a(a+1). One row step of an
insertion turns `row ++ [x]` into `[y] ++ row'` up to this congruence, where y is the letter passed to the next row (L_HeckeEquiv); moving
letters through a row uses that the row increases strictly. Induction over the rows and then over the word gives the row reading word of
the insertion tableau. The Demazure product `dw` of L_PermWord respects the relations (L_PermActs), which gives the statement about
permutations.

### The crystal of factorizations (C103)

The elements of the generator are `get_increasing_factorizations` of the Hecke words, turned into pairs (word, record). L_WordCrystal2 shows
that these are the compatible pairs with records in 1..k. The operator inserts (C101: a bijection onto pairs of tableaux), applies the tableau
operator (which keeps shape, semistandardness and the alphabet), inserts backwards, and looks the pair up. By C102 the new word has the same
Demazure product, so it is in the list, and the list has no repetitions. `WordCrystalGenerator.istrings` is inherited and calls a method that
pairs of tuples do not have, so it raises AttributeError; this is noted and not modelled.

### Unpriming the diagonal (C104)

`M_DiagUnprime` transcribes the two passes of `setvalued_column_insert` on lists of codes. L_DiagUnprime1: the bumps found have strictly increasing box
numbers, because a larger letter is never bumped into an earlier box; processing them from the right therefore only sees original boxes, every
index is valid, and `val[len(add):]` is what the filter leaves out, because the filter keeps a prefix of a sorted list. L_DiagUnprime3: with
`cord` the order in a column, the concatenation of the boxes stays sorted. L_DiagUnprime2 and L_DiagUnprime4 translate this to tableaux. The while
loops carry fuel computed from the number of cells and letters; a run of distinct cells leaves a finite tableau (`run_ends`). That the rows of
the result are ordered is not proved.

### Keys of skew shapes (C105)

L_SkewKey: without the shifted flag the loop ends at the translate that touches row 1 and column 1. With the flag, a shape weakly above the
diagonal first moves along the diagonal until it touches row 1, then m columns to the left, where m is the first number for which the shape
touches column 1 or has a box with j - i = 1. If there is no box on the diagonal, m + 1 is the least j - i, so the key is determined by the
shape up to translation. If there is one, the least j - i in the key is -m, and m is determined. A diagonal box may be pushed below the
diagonal: the shape of (3,1)/(2) has the key ((1,2),(2,1)), see `C105_example`. The key of a set of pairs is sorted, and sorting depends on the
set only (`sort_eq`).

### Skew shapes from their positions (C106)

L_FromSkew: `rows_from` shows that the first loop reads off row k of lam and mu where it is not empty, `fill_spec` that filling from the last
row up stays below lam and strictly (shifted) or weakly decreases, and `loop_spec` that the last loop subtracts the last part of mu from all
rows. Findings: `from_skew` of the empty set never returns, and `from_skew(positions, shifted=True)` moves every shape onto the diagonal, so a
shape without a diagonal box does not keep its `skew_key` (`C106_key_shifted`; the box (1,2) comes back as the shape of (1)).

### Set-valued co-Pieri tableaux (C107)

P_Copieri: `sorted_by_size` is the invariant of the dict (the lists under the keys are the nonempty fibres of the number of entries over the
tableaux seen so far), `add_list` keeps it through the inner loop, and different inner shapes mu give disjoint sets of tableaux because a
tableau of shape nu/mu determines mu.

### Refined dual polynomials (C108)

L_Refined: `diag_loop_spec` shows that the fuel of `_diag_vector` (one round per box of the tableau) suffices and what the result says about
the tableau, `group_spec` that the list under a key is the filter of the tableaux by diagonal, and `slow_by_false`/`scaled_counts` reuse the
lemmas of C71 on one group without the symmetry check. `add_up` in P_Refined.v splits the count by weight into the counts by key. The values
at single keys need not be symmetric: the code reads them at partitions only, and so does the theorem.

### Shifted growth diagrams (C109)

L_SGrowth works with the lengths of the rows: `rook` (a partition over the one above), `idle`/`active` (a partition and its labels next to the
left neighbour; an active cell has a new box, or its corner label names a removable box) and the lemmas on adding a box to a row or a column
(`rook_add`, `column_step`). `sg_step` in L_SGrowth2.v goes through the cases of the local rule: each returns without an exception and keeps
`rook` and `idle`/`active`. P_SGrowth.v carries this over rows (`inv`) and the table, and translates it into boxes. The table `reasons`, which
names the case used, is not modelled. At most one position per column is a hypothesis: it is what makes a cell with a one idle before.

### Tableaux of shifted growth diagrams (C110)

L_FromSGrowth: `p_inv` and `q_inv` are the invariants of the two loops; `last_row` and `last_col` show that the box named by a corner label is
the one `last_box_in_row` or `last_box_in_column` finds. P_FromSGrowth.v feeds them with C109_word. The equality with shifted Hecke insertion
is only an example there.

### Cutting shifted growth diagrams (C111)

L_SGrowth3: `rows_restrict` cuts rows and columns off, `rows_copy` shows that rows without ones repeat the row above, and `left_out` relates a
row to the row without the columns of the letters greater than k, in which nothing happens before row k + 1 (`row_left_out`).
P_SGrowthCut.v describes the two tableaux by the last column and the last row (`of_word`, from C110) and compares them. `tableaux_of` in
S_SGrowthCut.v only says that the two functions return this pair for some iteration order.

### Transitions of valued-set tableaux (C112)

L_VSTMoves: a group is a vertical or horizontal segment; each step of either loop turns a pair of segments into a pair of segments with a permutation
of the same cells (`bt_step_ok`, `ft_step_ok`), so the segments stay disjoint (`moves`). P_VSTMoves.v reads the dictionary after all writes off
the segments (`marks_at`, `write_ok`); the segments at the beginning come from C98. P_VSTWeight.v deduces that the weight (`group_weight`, which
counts groups of m and m' together) is unchanged by splitting the cells of absolute value m into those with m and those with -m.

## Per property plan

The list below gives the plan for the first properties; the other ones are covered by the subsections above and by the index at the end of this file,
which gives the file of the theorems of each property.

C01 `cached_value` as state-passing wrapper over an association-list cache; induction over call histories.
C02 heap model of a shared defaultdict; refutation by a concrete history, plus a positive theorem for histories of reads of present keys.
C03–C07 `Polynomial`: two-level dictionaries; semantics `coeff : monomial -> Z`; ring laws through coefficient functions; powers by induction; substitution as evaluation homomorphism; refutations by `vm_compute`.
C08–C09 `Vector` over an arbitrary key type with decidable equality; coefficient semantics; bilinear extension; repeated squaring by strong induction.
C10 `rref` transcribed as row operations on `list (list Z)`; invariants: row-space equivalence over Q (solution-set preservation) and echelon form; then consistency of the linear system.
C11 `nchoosek`: falling factorial and nested floor division.
C12–C20, C46 `Partition` functions, list induction.
C21 growth diagrams: invariant on every unit square; fuel bound by number of rows.
C22 crystal operators: the cancel loop is transcribed; invariant: position-labelled bracketing; equivalence with a stack-based normal form; inverse relation.
C23–C24 direct induction on words.
C25 factorizations: soundness, completeness, NoDup by induction.
C26–C29, C31, C47 signed permutations as lists; extension to functions Z -> Z; inversion counting; exchange for simple reflections; Demazure product by induction on length with the dihedral braid relations.
C30 generator state machines over the shared cache, sequential histories by invariant "cache is a prefix of the true level sequence"; interleaving refuted by a concrete schedule.
C32 finite maps with sorted tuples.
C33–C37 strips as products of intervals; tableaux as chains of strips; counting by induction on the largest letter; symmetry by a row-wise reflection of intervals.
C38–C39 monomial symmetric functions as orbit sums; expansion by unitriangularity.
C40–C43 operators on strict partitions, box words.
C44–C45 Hecke insertion: row transition model with exceptions, invariants on increasing tableaux.
C48 graph components: closure computation with fuel and invariants.

Properties that turn out false of the code are kept, with a theorem whose name ends in
`_refuted` and a concrete witness; properties only partly proved end in `_partial`.

## How the proofs go, area by area

* **Caches** (`M_Cached`, `M_CountCache`): `cached_value` is a state-passing wrapper over an association-list cache;
  induction over call histories. `defaultdict` values that are shared with the cache are modelled with a heap
  of objects (a read of a missing key mutates the stored object); refutation by a concrete history.
* **Polynomials, vectors** (`M_Polynomials`, `M_PolyHash`, `M_Vectors`, `M_Rref`): semantics by coefficient functions and
  by linear functionals (`ev`, `nev`: the value of a polynomial under an arbitrary function of monomials);
  ring laws, powers and substitution through these. `rref` is transcribed as row operations; invariants: equality of
  solution sets over Q and echelon form.
* **Partitions, generators** (`M_Partitions`, `M_Generate`, `M_PermGen`, `M_Levels`): list induction; generators that share
  module-level tables are explicit state machines and theorems quantify over histories; interleavings that
  break the tables are `_refuted`.
* **Words and crystals** (`M_Words`, `M_Crystal`): the cancel loop is transcribed and shown equal to a stack-based bracketing;
  components/edges by closure invariants with fuel shown sufficient.
* **Crystals of tableaux** (`M_TabCrystal`): the cancel loop on cells is the one on words, relabelled. One step is analysed
  on an abstract filling (a relation "cell holds entry" on a skew-convex set of cells); e is obtained from f by the
  reflection (x, y, v) -> (-x, -y, 2i+1-v). String lengths come from the height of the reading as a lattice path.
* **Atoms of involutions** (`M_Atoms`, `S_Atoms`, `L_Atoms1`-`L_Atoms8`, `P_Atoms`): an atom is characterised by local conditions on the
  one-line notation of its inverse (`cond`), by induction along involution words in both directions. The search of `_get_atoms` replaces
  consecutive entries c, a, b by b, c, a; each such move raises a rank by exactly one and preserves the conditions, and a line to which no
  inverse move applies is the starting line, so round k of the search finds exactly the lines of rank k. Caches are handled by invariants
  which calls with any arguments preserve. The fixed-point-free and the type D enumerators are recursions on the last letter of a word.
* **Crystals of multiset-valued tableaux** (`M_TabCrystal`, `L_Multi1`-`L_Multi4`): a column is the pair (smallest entries, other entries);
  its word determines it. One letter change is followed through the two columns next to it, for f and for e separately; the
  rest follows from the word operators (C22) and from the height function of a word for string lengths.
* **Permutations** (`M_Perm`): one-line words as maps Z -> Z, inversion counting, exchange for simple reflections,
  Demazure product.
* **Operators, boxes** (`M_Operators`, `M_Boxes`): linear extension of maps on strict partitions; word algebras.
* **Tableaux** (`M_Tableaux`, `M_Strips`, `M_Semistandard`, `M_RPP`): strips are characterised by cells; enumerators are
  shown sound, complete and duplicate-free by induction on the largest letter, for every iteration order of the sets;
  counters are shown to count exactly the enumerated tableaux by weight.
* **Symmetry of the counts** (`L_Sym*`, `L_RPP5/6`): tableaux are chains of shapes. The number of ways to go through two
  adjacent letters is a product over rows or over diagonals. For set-valued and marked shifted tableaux the
  transfer operators are written as products of local operators on diagonals that satisfy commutation and
  Yang-Baxter type relations, from which the operators of two letters commute. For reverse plane partitions the two-letter
  count factors over the rows of the transposed shapes and is invariant under exchange.
* **Symmetric polynomials** (`M_Symmetric`, `M_Expansion`, `M_Expansion2`, `M_Families`, `M_Slow`, `M_Dual`, `M_Transposed`): the result of each constructor is
  characterised coefficient by coefficient; `polynomial()` is the sum over all rearrangements, so with the symmetry
  theorem it is the generating function of the tableaux. Expansions are total (or exact on combinations) by
  triangularity with respect to degree and lexicographic order, for the lowest-degree and the highest-degree loops.
* **Stable Grothendieck polynomials of permutations** (`M_PermGroth`): the words of the level generators are paths for a
  partial action of the 0-Hecke monoid; the Fomin–Kirillov operators `prod (1 + x U_i)` of two variables commute
  (Yang–Baxter, types A and B), so the numbers of decreasing or unimodal factorizations do not depend on the order of the
  lengths. Hence the check inside `_symmetrize` succeeds and its `max` ranges over equal coefficients. The words bounded
  by ascents or peaks are finitely many, so the generators stop.
* **Involution words** (`M_InvWords`): `neg + pair` is computed by counting values (a trace argument), so one step of a
  word at an ascent raises `ell + neg + pair` by two. Hence the length formula is the shortest word, reduced words are
  those with all steps ascents, and the word loops stop. Fixed-point-free words descend to the standard matching;
  trailing pairs are irrelevant to the set of words.
* **Bruhat covers and transitions** (`M_Bruhat`): deleting a letter of a reduced word is multiplication by a reflection, and
  the strong exchange property gives the converse, so the reduced one-letter deletions are exactly the covers. `tau` is
  followed through its case tables, each value being an involution of larger length or y itself.
* **Enumerators** (`M_PermEnum`): the signs of `all` are binary digits; in `involutions` the invariant of the search is
  "processed ++ queue has no repetition, lies in the box and is closed under lowering", which at the end gives the whole
  box; a vector of the box determines a matching one to one. `fpf_involutions` is handled level by level, a level being the
  set of involutions with a given length.
* **Grassmannian permutations** (`M_Grass`): a permutation is determined by its first k values and increasing after k. Codes
  of involutions count arcs over a point: pairing an inversion (i, j) with (z(j), z(i)) gives the sum, and a discrete
  intermediate value argument on the depth gives every value up to the largest, so that the transposed code is strict.
* **Rims** (`M_Rims`): the border of a shifted shape is a lattice path; `_rims_helper` lists the subsets of the path closed
  under "right neighbour needs left neighbour" and "box needs the box above", which are the rims.
* **KOG and KLG tableaux** (`M_KOG`): the enumerators peel off sets of corners from the largest label down; a generic
  peeling lemma shows that the results are exactly the fillings satisfying a local test at each label, which is then shown
  equivalent to the global definition. A rim is a lattice path (possibly broken); words along the path are generated from
  the end, and the counting recursion is shown to count these words. Shapes are recovered by adding the cells to `mu`.
* **Hecke insertion** (`M_Insertion`): transition system with exceptions; invariants on increasing tableaux; inverse.
* **Shifted Hecke insertion** (`M_FState`): a shifted shape is given by its row lengths L and column heights H. One row,
  diagonal or column transition is described as a partial function on fillings (`RIns`, `CIns`), the model's `path` follows it,
  and every transition is undone by `previous` (`r_back`, `c_back`, `d1_back`, `d2_back`), where even entries and 0 as the
  default of `get` matter. The last recorded value tells which terminal transition to undo.

## Trusted base

* The Coq 8.16.1 kernel, including `vm_compute` (used for closed examples and refutation witnesses).
* The faithfulness of the hand transcription in `M_*.v`: every definition cites its lines; it is neither extracted nor
  run against Python.
* The reading of the specifications in `S_*.v`.
* Axioms: none. `Print Assumptions` follows every theorem named in `MANIFEST.json` and prints
  `Closed under the global context` for each of them. (`coqchk -o` lists the module-type fields of
  `Coq.ssr.ssrunder.Under_rel` because `ssreflect` is loaded by some files of the standard distribution; no theorem uses them.)

## What is modelled, file by file

| file | modelled | not modelled |
|---|---|---|
| cached.py | `cached_value` | – |
| polynomials.py | all arithmetic, powers, substitution, divisibility, hashing/equality/`__repr__` strings | `tex` output |
| vectors.py | `Vector` arithmetic, `==`, `rref`, `is_expressable` | printing |
| partitions.py | see `M_Partitions.v`, `M_Generate.v`, `M_Rims.v` (decompositions, rims, ribbons), `M_KOG.v` (`rim_terminal_part`), `M_SkewKey.v` (`skew_key`), `M_FromSkew.v` (`from_skew`), `M_SGrowth.v` (`shifted_growth_diagram` without `reasons`, `add_box_to_column` with shift=True) | printing |
| words.py | crystal operators, statistics, zeta functions, quasisymmetrize | wiring diagrams (ASCII art) |
| crystals.py | `CrystalMixin.edges/components/istrings`, increasing factorizations, `TableauCrystalGenerator.f_crystal_operator`, `WordCrystalGenerator` (constructor, `factorizations`, `factorization_tuple_to_array`, `f_crystal_operator`) | drawing, file output, the shifted generators |
| permutations.py | group structure, words, involution and fixed-point-free involution words and lengths, Bruhat covers, atoms (`get_atoms`, `get_min_atom`, `get_fpf_atoms`, `get_atoms_d`, `get_involution_words`), `tau` and transitions, Little bumps of words and of involution words, the enumerators `all`, `involutions`, `fpf_involutions`, codes, shapes, Grassmannian, I-Grassmannian and FPF-Grassmannian permutations, Hecke word levels, Demazure product, the four stable Grothendieck polynomials of permutations with `_symmetrize(check=True)` | Rothe diagrams (printing), the fixed-point-free Little bumps; atoms of signed involutions are modelled without claims |
| operators.py, dualops.py, boxes.py | all operators and the box algebra | string parsing, `print_commutator` |
| tableaux.py | container methods, strips, all `semistandard*`, `standard*`, `count_*`, reverse plane partitions, weights, KOG and KLG tableaux with their counts (`M_KOG.v`), crystal operators (`M_TabCrystal.v`), `shifted_setvalued_copieri` (`M_Copieri.v`), `from_shifted_growth_diagram` (`M_FromSGrowth.v`) | printing |
| symmetric.py | monomials, products, `polynomial`, all Schur/Grothendieck/dual families with slow versions, all expansions except as listed (refined versions in `M_Refined.v`) | `gp_free_expansion`; see also the list in the model headers |
| insertion.py | Hecke insertion, shifted (orthogonal and symplectic) Hecke insertion, their inverses, recording tableaux, `unprime_diagonal`, `setvalued_column_insert`; theorems on symplectic insertion cover the even words that orthogonal insertion passes to it | symplectic insertion of words with odd letters |
| utils.py | only aliases | – |
| vst.py | `ValuedSetTableau.all`, `__init__`, `is_valid_position`, `weight`, `is_semistandard`, `is_highest_weight`, `is_group_start/end`, `is_singleton`, `singletons`, `diagonal_singletons`, `diagonal_primes`, `primed_diagonal_cells`, `primed_groups`, `get_horizontals`, `get_verticals`, `hinge`, `unprime`, `unprime_diagonal`, `is_interstandard`, `all_interstandard`, `in_same_group`, `forward_transition`, `backward_transition` (`M_VSTMoves.v`) | `middle_transition`, printing |
| scrap.py | – | all |

Where a theorem needs a hypothesis (for instance, partitions without trailing zeros, letters >= 1), the hypothesis is in the statement;
behaviour outside it is either covered by a separate theorem, or not claimed. Memory limits, recursion limits (except as fuel), performance and printing are
outside the model.

## Index of properties

| property | theorems in | title |
|---|---|---|
| C01 | P_Cached.v | Memoised class methods are transparent |
| C03 | P_Polynomials.v | Polynomial +, -, * are the operations of the Laurent polynomial ring |
| C04 | P_Polynomials.v | Polynomial == and is_zero decide mathematical equality; no zero coefficient is ever stored |
| C05 | P_Polynomials.v | Polynomial powers |
| C06 | P_Polynomials.v | Substitution is evaluation |
| C07 | P_Polynomials.v | Comparison and hashing of polynomials respect equality |
| C08 | P_Vectors.v | Vector is a free module: +, -, scalar * and == are coefficientwise |
| C09 | P_Vectors.v | Vector product is bilinear and powers are iterated products |
| C12 | P_Partitions.v | Partition.transpose is conjugation and an involution |
| C13 | P_Partitions.v | Basic shape operations mean what they say |
| C14 | P_Partitions.v | Partition.compositions enumerates compositions exactly once |
| C15 | P_Generate.v | Partition.generate / all enumerate exactly the requested partitions, in every call history |
| C16 | P_Partitions.v | Partition.subpartitions enumerates exactly the interval below mu |
| C17 | P_Partitions.v | Partition.successors enumerates exactly the vertical-strip extensions without new rows |
| C18 | P_Partitions.v | Corner removal enumerates exactly the sets of removable corners |
| C19 | P_Partitions.v | Partition.complement is set complement of parts |
| C20 | P_Partitions.v | Shapes round trip |
| C21 | P_Partitions.v | Growth diagrams satisfy Fomin's local rules globally |
| C46 | P_Partitions.v | Decrement operations stay within strict partitions |
| C22 | P_Words.v | Crystal operators on words are mutually inverse partial maps |
| C23 | P_Words.v | Quasisymmetrization coefficient formula |
| C24 | P_Words.v | Zeta functions, ascents and descents of words |
| C25 | P_Words.v | get_increasing_factorizations lists exactly the monotone k-factorizations |
| C10 | P_Rref.v | is_expressable decides membership in the rational span |
| C11 | P_Rref.v | nchoosek computes binomial coefficients |
| C26 | P_Perm.v | Permutation is a group of signed permutations in canonical form |
| C27 | P_Perm.v | Length and descents |
| C28 | P_Perm.v | Reduced words |
| C29 | P_Perm.v | % is the Demazure (0-Hecke) product |
| C31 | P_Perm.v | Powers of permutations |
| C47 | P_Perm.v | Permutation.code is the Lehmer code |
| C30 | P_Levels.v | Hecke word generators do not influence each other |
| C49 | P_Levels.v | Word statistics: ascents and peaks |
| C48 | P_Crystal.v | Crystal components partition the vertices |
| C50 | P_Crystal.v | i-strings of a crystal cut the vertices into maximal chains |
| C40 | P_Operators.v | Shifted box-adding operators satisfy the 0-Hecke type relations |
| C41 | P_Operators.v | Box-removing operators: action on one shape, and failure of linearity |
| C42 | P_Operators.v | Strip-adding operators produce strict partitions |
| C43 | P_Boxes.v | Box operator words form an associative algebra |
| C32 | P_Tableaux.v | Tableau is a finite map from cells to sorted entry tuples |
| C33 | P_Strips.v | Horizontal and vertical strips are enumerated exactly |
| C34 | P_Semistandard.v | semistandard enumerates exactly the (set-valued) semistandard tableaux |
| C51 | P_Semistandard.v | Marked and shifted marked enumerators are exact |
| C35 | P_Count.v | Counting agrees with enumeration |
| C36 | P_Count.v | Shifted marked counting agrees with enumeration |
| C02 | P_CountCache.v | Look-ups in the mappings returned by the memoised counting function never make later look-ups wrong |
| C38 | P_Symmetric.v | Products of symmetric polynomials agree with products of ordinary polynomials |
| C39 | P_Expansion.v | Expansions reconstruct the input and are unique |
| C52 | P_Expansion.v | Grothendieck expansions are total and unique |
| C44 | P_Insertion.v | Hecke insertion is total and produces an increasing tableau with a same-shape recording tableau |
| C45 | P_Insertion.v | Hecke insertion is invertible |
| C37 | P_Symmetry.v | Schur polynomials and stable Grothendieck polynomials are symmetric |
| C53 | P_Symmetry.v | A degree bound keeps exactly the terms of bounded degree |
| C54 | P_Standard.v | Standard tableau enumerators are exact |
| C55 | P_Families.v | S, Q and P polynomials are generating functions of marked tableaux |
| C56 | P_Families.v | GS, GQ and GP polynomials are generating functions of set-valued marked tableaux |
| C57 | P_Families.v | The slow path agrees for the S, Q, P families |
| C58 | P_Families.v | Marked tableau counts are symmetric in the weight |
| C59 | P_Families.v | Doublebar polynomials sum over removed corners |
| C60 | P_Families.v | Negating beta changes the sign of odd powers of beta only |
| C61 | P_Expansion2.v | P, Q, GP and GQ expansions return on exactly the combinations, with their coefficients |
| C62 | P_Expansion2.v | mn_grothendieck_expansion is total and returns the unique coefficients |
| C63 | P_Expansion2.v | omega_schur_expansion transposes every index of the Schur expansion |
| C64 | P_Expansion2.v | S_expansion does not return on its own family |
| C65 | P_RPP.v | Reverse plane partition enumerators are exact |
| C66 | P_RPP.v | Reverse plane partition counters agree with the enumerators |
| C67 | P_RPP.v | Weights of reverse plane partitions |
| C68 | P_Dual.v | Reverse plane partition counts are symmetric in the weight |
| C69 | P_Dual.v | dual_stable_grothendieck is the signed generating function of reverse plane partitions |
| C70 | P_Dual.v | Coefficients of dual_stable_grothendieck_p, _q and _s |
| C71 | P_Dual.v | The slow dual Grothendieck functions agree with the fast ones |
| C72 | P_Dual.v | Dual Grothendieck expansions exist, are exact and unique |
| C73 | P_Dual.v | gp, gq expansions are exact on combinations; gs_expansion is not |
| C74 | P_Dual.v | mp_dual functions change the sign of beta |
| C75 | P_Transposed.v | Valued-set tableaux are enumerated exactly once |
| C76 | P_Transposed.v | Transposed dual families count valued-set tableaux |
| C77 | P_Transposed.v | j, jp, jq expansions are exact; js_expansion is not |
| C78 | P_QP.v | Schur Q polynomials are power-of-two multiples of Schur P polynomials |
| C79 | P_PermGroth.v | Stable Grothendieck polynomials of permutations are the generating functions of factorizations of Hecke words |
| C80 | P_InvWords.v | Involution lengths and involution words |
| C81 | P_Bruhat.v | Bruhat covers |
| C82 | P_Bruhat.v | Transitions and tau |
| C83 | P_PermEnum.v | The enumerators of permutations and involutions yield each object exactly once |
| C84 | P_FState.v | Shifted Hecke insertion is total and gives shifted tableaux |
| C85 | P_FState.v | Shifted Hecke insertion is invertible |
| C86 | P_Grass.v | Grassmannian permutations correspond to partitions |
| C87 | P_InvGrass.v | Codes and shapes of involutions, and I-Grassmannian involutions |
| C88 | P_FpfGrass.v | Codes and shapes of fixed-point-free involutions, and FPF-Grassmannian involutions |
| C89 | P_Rims.v | Decompositions of shifted shapes, rims and ribbons are exact |
| C90 | P_KOG.v | KOG tableaux are enumerated exactly and counted by the recursion |
| C91 | P_KOG.v | KLG tableaux are enumerated exactly and counted by the recursion |
| C92 | P_TabCrystal.v | crystal operators on set-valued tableaux form a crystal |
| C93 | P_Multi.v | crystal operators on multiset-valued tableaux form a crystal |
| C94 | P_Atoms.v | atoms and involution words of involutions are enumerated exactly |
| C95 | P_Little.v | Little bumps turn reduced words into reduced words, one to one |
| C96 | P_ILittle.v | Little bumps turn shortest involution words into shortest involution words, one to one |
| C97 | P_Standardize.v | is_semistandard and is_standard decide, and standardize numbers the entries |
| C98 | P_VST.v | Groups of valued-set tableaux are found exactly, and is_semistandard decides |
| C99 | P_Unprime.v | Removing primes from valued-set tableaux, and hinges |
| C100 | P_Inter.v | Interstandard valued-set tableaux, and the test for lying in the same group |
| C101 | P_HeckeOnto.v | Hecke insertion is a bijection onto pairs of tableaux |
| C102 | P_HeckeEquiv.v | Hecke insertion keeps the Demazure product |
| C103 | P_WordCrystal.v | The crystal operator on factorizations always finds its image |
| C104 | P_DiagUnprime.v | Unpriming the diagonal terminates and loses no letter |
| C105 | P_SkewKey.v | skew_key is a complete invariant of skew shapes up to translation |
| C106 | P_FromSkew.v | from_skew recovers a skew shape up to moving it to the left |
| C107 | P_Copieri.v | shifted_setvalued_copieri lists exactly the one-letter set-valued tableaux by size |
| C108 | P_Refined.v | the refined dual polynomials count tableaux by diagonal and add up to the dual polynomials |
| C109 | P_SGrowth.v | the shifted growth diagram exists and is a table of strict partitions growing by rook strips and single boxes |
| C110 | P_FromSGrowth.v | the tableaux read off the shifted growth diagram of a word have its shape and a standard recording tableau |
| C111 | P_SGrowthCut.v | shifted growth diagrams are local, and their tableaux are compatible with prefixes and with leaving out large letters |
| C112 | P_VSTMoves.v, P_VSTWeight.v | forward and backward transitions of valued-set tableaux regroup cells and keep the weight |
