{
 "claims": [
  {
   "property": "C01",
   "status": "proved",
   "theorems": [
    "C01_memo_transparent",
    "C01_memo_total",
    "C01_memo_once"
   ],
   "note": ""
  },
  {
   "property": "C03",
   "status": "proved",
   "theorems": [
    "C03_polynomial_ring"
   ],
   "note": ""
  },
  {
   "property": "C04",
   "status": "proved",
   "theorems": [
    "C04_polynomial_equality"
   ],
   "note": ""
  },
  {
   "property": "C05",
   "status": "proved",
   "theorems": [
    "C05_powers",
    "C05_negative_power_refuted"
   ],
   "note": "Nonnegative powers and inverses of coefficient-1 monomials proved; the claim for coefficient -1 and even exponents is false of the code (refuted with witness; the exact sign is proved)."
  },
  {
   "property": "C06",
   "status": "proved",
   "theorems": [
    "C06_substitution",
    "C06_truncate_coefficient"
   ],
   "note": ""
  },
  {
   "property": "C07",
   "status": "proved",
   "theorems": [
    "C07_lt_irreflexive_refuted",
    "C07_hash_refuted"
   ],
   "note": "Both halves are false of the code: f<f is always True, and f+g, g+f can hash different strings."
  },
  {
   "property": "C08",
   "status": "proved",
   "theorems": [
    "C08_vector_module"
   ],
   "note": ""
  },
  {
   "property": "C09",
   "status": "proved",
   "theorems": [
    "C09_vector_product_bilinear",
    "C09_vector_product_assoc_pow"
   ],
   "note": ""
  },
  {
   "property": "C12",
   "status": "proved",
   "theorems": [
    "C12_transpose_conjugation"
   ],
   "note": ""
  },
  {
   "property": "C13",
   "status": "proved",
   "theorems": [
    "C13_trim",
    "C13_sort",
    "C13_contains_union",
    "C13_add_box_to_row"
   ],
   "note": ""
  },
  {
   "property": "C14",
   "status": "proved",
   "theorems": [
    "C14_compositions",
    "C14_peak_compositions"
   ],
   "note": ""
  },
  {
   "property": "C15",
   "status": "proved",
   "theorems": [
    "C15_generate_histories",
    "C15_generate_deterministic",
    "C15_generate_terminates"
   ],
   "note": "Generators are suspended trees over the shared table; all histories, interleavings and abandonments. max_row must be None or >= 0 (generate(0, max_row=-1) yields ())."
  },
  {
   "property": "C16",
   "status": "proved",
   "theorems": [
    "C16_subpartitions",
    "C16_subpartitions_long_nu_refuted"
   ],
   "note": "Proved when nu has at most as many rows as mu; refuted otherwise."
  },
  {
   "property": "C17",
   "status": "proved",
   "theorems": [
    "C17_successors"
   ],
   "note": ""
  },
  {
   "property": "C18",
   "status": "proved",
   "theorems": [
    "C18_remove_inner_corners",
    "C18_remove_shifted_inner_corners"
   ],
   "note": ""
  },
  {
   "property": "C19",
   "status": "proved",
   "theorems": [
    "C19_complement"
   ],
   "note": ""
  },
  {
   "property": "C20",
   "status": "proved",
   "theorems": [
    "C20_shapes",
    "C20_from_shape_round_trip"
   ],
   "note": ""
  },
  {
   "property": "C21",
   "status": "proved",
   "theorems": [
    "C21_growth_diagram",
    "C21_growth_diagram_default"
   ],
   "note": ""
  },
  {
   "property": "C46",
   "status": "proved",
   "theorems": [
    "C46_decrement"
   ],
   "note": ""
  },
  {
   "property": "C22",
   "status": "proved",
   "theorems": [
    "C22_crystal_words",
    "C22_crystal_tuples"
   ],
   "note": ""
  },
  {
   "property": "C23",
   "status": "proved",
   "theorems": [
    "C23_quasisymmetrize"
   ],
   "note": ""
  },
  {
   "property": "C24",
   "status": "proved",
   "theorems": [
    "C24_zetas",
    "C24_unimodal",
    "C24_unimodal_indicator_refuted",
    "C24_ascents_descents"
   ],
   "note": "The naive reading (twice an indicator function on nonempty words) is refuted by words with a repeated bottom letter; the exact values are proved."
  },
  {
   "property": "C25",
   "status": "proved",
   "theorems": [
    "C25_increasing_factorizations"
   ],
   "note": ""
  },
  {
   "property": "C10",
   "status": "proved",
   "theorems": [
    "C10_rref",
    "C10_is_expressable"
   ],
   "note": "Row equivalence is stated as equality of the solution spaces of the homogeneous systems over Q."
  },
  {
   "property": "C11",
   "status": "proved",
   "theorems": [
    "C11_nchoosek"
   ],
   "note": "Also covers negative m."
  },
  {
   "property": "C26",
   "status": "proved",
   "theorems": [
    "C26_constructor",
    "C26_constructor_onto",
    "C26_equality",
    "C26_product",
    "C26_inverse",
    "C26_simple_reflections"
   ],
   "note": "constructor, call, equality, product, inverse and simple reflections of signed permutations of any rank"
  },
  {
   "property": "C27",
   "status": "proved",
   "theorems": [
    "C27_length_inversions",
    "C27_descents",
    "C27_right",
    "C27_left",
    "C27_length_zero",
    "C27_length_inverse"
   ],
   "note": "length as number of inversions; right and left multiplication; identity; inverse"
  },
  {
   "property": "C28",
   "status": "proved",
   "theorems": [
    "C28_get_reduced_word",
    "C28_reduced_words_are_shortest",
    "C28_from_word",
    "C28_histories",
    "C28_histories_finish"
   ],
   "note": "generators sharing the word table, any interleaving and abandonment, any set iteration order"
  },
  {
   "property": "C29",
   "status": "proved",
   "theorems": [
    "C29_choice_independent",
    "C29_generators",
    "C29_unit",
    "C29_associative"
   ],
   "note": "for every choice of descents; uses a full proof of the word property for type B (any two reduced words act in the same way)"
  },
  {
   "property": "C31",
   "status": "proved",
   "theorems": [
    "C31_power_positive",
    "C31_power_negative",
    "C31_power_zero_refuted"
   ],
   "note": "the case n = 0 is refuted: the call raises TypeError"
  },
  {
   "property": "C47",
   "status": "proved",
   "theorems": [
    "C47_code_entries",
    "C47_code_sum",
    "C47_code_injective",
    "C47_code_signed_raises"
   ],
   "note": ""
  },
  {
   "property": "C30",
   "status": "proved",
   "theorems": [
    "C30_hecke_levels",
    "C30_involution_levels",
    "C30_symplectic_levels",
    "C30_interleaved_refuted",
    "C30_interleaved_cache_refuted"
   ],
   "note": "proved for every history that does not resume a generator after a younger one for the same key was started; the interleaved case is refuted by a witness, and so is correctness of the cache afterwards"
  },
  {
   "property": "C49",
   "status": "proved",
   "theorems": [
    "C49_peaks",
    "C49_ascents"
   ],
   "note": ""
  },
  {
   "property": "C48",
   "status": "proved",
   "theorems": [
    "C48_edges",
    "C48_components"
   ],
   "note": "for every choice made by set.pop(); the edge list is the exact graph of the operators"
  },
  {
   "property": "C50",
   "status": "proved",
   "theorems": [
    "C50_istrings",
    "C50_istrings_diverges"
   ],
   "note": ""
  },
  {
   "property": "C40",
   "status": "proved",
   "theorems": [
    "C40_action",
    "C40_relations"
   ],
   "note": "over any commutative ring of coefficients; C40_relations includes linearity of operator_AL and operator_AR"
  },
  {
   "property": "C41",
   "status": "proved",
   "theorems": [
    "C41_single_shape",
    "C41_coefficients_ignored",
    "C41_linearity_refuted"
   ],
   "note": "the expected linearity is false of the code: the coefficients of the input vector are ignored"
  },
  {
   "property": "C42",
   "status": "proved",
   "theorems": [
    "C42_strips",
    "C42_arguments"
   ],
   "note": ""
  },
  {
   "property": "C43",
   "status": "proved",
   "theorems": [
    "C43_box_algebra",
    "C43_unit_refuted"
   ],
   "note": "unit law only for combinations of words that satisfy the relations; refuted otherwise"
  },
  {
   "property": "C32",
   "status": "proved",
   "theorems": [
    "C32_construction",
    "C32_equality",
    "C32_add",
    "C32_remove",
    "C32_replace",
    "C32_transpose",
    "C32_get"
   ],
   "note": "Tableau container: construction, equality, add, remove, replace, transpose and get. Rendering, string input and pop are not modelled."
  },
  {
   "property": "C33",
   "status": "proved",
   "theorems": [
    "C33_horizontal",
    "C33_vertical",
    "C33_shifted_horizontal",
    "C33_shifted_vertical",
    "C33_not_strict"
   ],
   "note": "For every iteration order of Python sets."
  },
  {
   "property": "C34",
   "status": "proved",
   "theorems": [
    "C34_semistandard",
    "C34_not_contained"
   ],
   "note": "For every iteration order of Python sets; when nu is not inside mu the result is empty."
  },
  {
   "property": "C51",
   "status": "proved",
   "theorems": [
    "C51_marked",
    "C51_shifted_marked",
    "C51_shifted_not_contained"
   ],
   "note": ""
  },
  {
   "property": "C35",
   "status": "proved",
   "theorems": [
    "C35_count_semistandard",
    "C35_not_contained",
    "C35_weight"
   ],
   "note": "count_semistandard (plain and set-valued) against the enumerator, for every iteration order; Tableau.weight(n) is the vector of occurrences."
  },
  {
   "property": "C36",
   "status": "proved",
   "theorems": [
    "C36_count_semistandard_shifted_marked",
    "C36_count_semistandard_marked",
    "C36_not_contained"
   ],
   "note": "Shifted marked counter for both flags; also the unshifted marked counter."
  },
  {
   "property": "C02",
   "status": "proved",
   "theorems": [
    "C02_lookups_never_wrong",
    "C02_short_lookups_harmless",
    "C02_lookups_leave_no_trace_refuted"
   ],
   "note": "the stronger claim that look-ups leave no trace is false of the code and refuted with witnesses"
  },
  {
   "property": "C38",
   "status": "proved",
   "theorems": [
    "C38_monomial_symmetric_function",
    "C38_product_int",
    "C38_product_polynomial"
   ],
   "note": "For int and Polynomial coefficients, x or y variables and any set iteration order; the coefficients of the polynomial of one monomial symmetric function are characterised independently."
  },
  {
   "property": "C39",
   "status": "proved",
   "theorems": [
    "C39_sound",
    "C39_schur_expansion",
    "C39_schur_coefficients",
    "C39_other_variables_refuted"
   ],
   "note": "C39_sound covers every expansion method that goes through _expansion, whatever the family and the choice of leading term; termination and uniqueness are for schur_expansion with coefficients in powers of beta. C39_other_variables_refuted: with another variable in a coefficient the recursion does not end (out of fuel for every fuel)."
  },
  {
   "property": "C52",
   "status": "proved",
   "theorems": [
    "C52_grothendieck_expansion",
    "C52_grothendieck_coefficients"
   ],
   "note": "total and unique for coefficients in powers of beta (ints included); same caveat on other variables as C39."
  },
  {
   "property": "C44",
   "status": "proved",
   "theorems": [
    "C44_total",
    "C44_record",
    "C44_incompatible"
   ],
   "note": "all int words, both flags; default record, any compatible record, and rejection of the others"
  },
  {
   "property": "C45",
   "status": "proved",
   "theorems": [
    "C45_inverse",
    "C45_default",
    "C45_injective",
    "C45_negative_refuted"
   ],
   "note": "words of nonnegative ints; negative letters refuted with a witness"
  },
  {
   "property": "C37",
   "status": "proved",
   "theorems": [
    "C37_symmetric",
    "C37_schur_polynomial",
    "C37_grothendieck_polynomial",
    "C37_slow_schur",
    "C37_slow_grothendieck"
   ],
   "note": "all n and all partitions mu, nu (nu need not be contained in mu); marked and shifted tableaux are in C55-C58"
  },
  {
   "property": "C53",
   "status": "proved",
   "theorems": [
    "C53_degree_bound"
   ],
   "note": "stable_grothendieck; the degree bounds of the other families are in C56 and C59"
  },
  {
   "property": "C54",
   "status": "proved",
   "theorems": [
    "C54_standard",
    "C54_not_contained",
    "C54_shifted_marked",
    "C54_shifted_not_contained",
    "C54_shifted_not_strict"
   ],
   "note": "all partitions / strict partitions; totality (fuel suffices) included"
  },
  {
   "property": "C55",
   "status": "proved",
   "theorems": [
    "C55_schur_s",
    "C55_schur_q",
    "C55_schur_p"
   ],
   "note": "all n and all shapes; nu need not be contained in mu"
  },
  {
   "property": "C56",
   "status": "proved",
   "theorems": [
    "C56_stable_grothendieck_s",
    "C56_stable_grothendieck_q",
    "C56_stable_grothendieck_p"
   ],
   "note": "with and without degree bound"
  },
  {
   "property": "C57",
   "status": "proved",
   "theorems": [
    "C57_slow_schur_s",
    "C57_slow_schur_q",
    "C57_slow_schur_p",
    "C57_slow_grothendieck_s",
    "C57_slow_grothendieck_q",
    "C57_slow_grothendieck_p"
   ],
   "note": "equal as vectors and coefficientwise"
  },
  {
   "property": "C58",
   "status": "proved",
   "theorems": [
    "C58_marked_symmetric",
    "C58_shifted_marked_symmetric"
   ],
   "note": "proved through commuting corner-removal operators (L_Sym7 to L_Sym11)"
  },
  {
   "property": "C59",
   "status": "proved",
   "theorems": [
    "C59_doublebar",
    "C59_doublebar_s",
    "C59_doublebar_q",
    "C59_doublebar_p"
   ],
   "note": "tableaux of different inner shapes are distinct, so the coefficient is the number of tableaux over all inner shapes"
  },
  {
   "property": "C60",
   "status": "proved",
   "theorems": [
    "C60_negate_beta",
    "C60_mn_stable_grothendieck",
    "C60_mn_stable_grothendieck_q",
    "C60_mn_stable_grothendieck_p"
   ],
   "note": "mn versions have no degree bound in the code"
  },
  {
   "property": "C61",
   "status": "proved",
   "theorems": [
    "C61_P_expansion",
    "C61_Q_expansion",
    "C61_GP_expansion",
    "C61_GQ_expansion",
    "C61_mn_GP_expansion",
    "C61_mn_GQ_expansion"
   ],
   "note": "completeness and soundness in one specification (expands); strict partitions"
  },
  {
   "property": "C62",
   "status": "proved",
   "theorems": [
    "C62_mn_grothendieck_expansion",
    "C62_mn_grothendieck_coefficients"
   ],
   "note": "total, and unique coefficients"
  },
  {
   "property": "C63",
   "status": "proved",
   "theorems": [
    "C63_omega_schur_expansion"
   ],
   "note": "entries are the transposed entries of the Schur expansion"
  },
  {
   "property": "C64",
   "status": "proved",
   "theorems": [
    "C64_S_expansion_refuted",
    "C64_S_family_dependent"
   ],
   "note": "refutation of the natural expectation for S_expansion, at every fuel"
  },
  {
   "property": "C65",
   "status": "proved",
   "theorems": [
    "C65_semistandard_rpp",
    "C65_semistandard_marked_rpp"
   ],
   "note": ""
  },
  {
   "property": "C66",
   "status": "proved",
   "theorems": [
    "C66_count_semistandard_rpp",
    "C66_count_semistandard_marked_rpp",
    "C66_not_strict"
   ],
   "note": "counts of non-partition weights are not stored by the code"
  },
  {
   "property": "C67",
   "status": "proved",
   "theorems": [
    "C67_rpp_weight",
    "C67_marked_rpp_weight"
   ],
   "note": ""
  },
  {
   "property": "C68",
   "status": "proved",
   "theorems": [
    "C68_rpp_symmetric"
   ],
   "note": ""
  },
  {
   "property": "C69",
   "status": "proved",
   "theorems": [
    "C69_dual_stable_grothendieck"
   ],
   "note": ""
  },
  {
   "property": "C70",
   "status": "proved",
   "theorems": [
    "C70_dual_stable_grothendieck_p",
    "C70_dual_stable_grothendieck_q",
    "C70_dual_stable_grothendieck_s"
   ],
   "note": "coefficients at monomials of partitions"
  },
  {
   "property": "C71",
   "status": "proved",
   "theorems": [
    "C71_slow_dual_stable_grothendieck",
    "C71_slow_dual_stable_grothendieck_p",
    "C71_slow_dual_stable_grothendieck_q"
   ],
   "note": "that the symmetry check of the shifted slow versions never fails is not claimed"
  },
  {
   "property": "C72",
   "status": "proved",
   "theorems": [
    "C72_dual_grothendieck_expansion",
    "C72_dual_grothendieck_coefficients",
    "C72_mp_dual_grothendieck_expansion",
    "C72_mp_dual_grothendieck_coefficients"
   ],
   "note": ""
  },
  {
   "property": "C73",
   "status": "proved",
   "theorems": [
    "C73_gp_expansion",
    "C73_gq_expansion",
    "C73_mp_gp_expansion",
    "C73_mp_gq_expansion",
    "C73_gs_expansion_refuted",
    "C73_gs_family_dependent"
   ],
   "note": "the gs part is a refutation of the natural expectation"
  },
  {
   "property": "C74",
   "status": "proved",
   "theorems": [
    "C74_mp_dual_stable_grothendieck",
    "C74_mp_dual_stable_grothendieck_p",
    "C74_mp_dual_stable_grothendieck_q"
   ],
   "note": ""
  },
  {
   "property": "C75",
   "status": "proved",
   "theorems": [
    "C75_vst_all",
    "C75_vst_weight",
    "C75_vst_not_strict"
   ],
   "note": ""
  },
  {
   "property": "C76",
   "status": "proved",
   "theorems": [
    "C76_transposed_dual_stable_grothendieck",
    "C76_transposed_dual_stable_grothendieck_p",
    "C76_transposed_dual_stable_grothendieck_q",
    "C76_transposed_dual_stable_grothendieck_s"
   ],
   "note": "coefficients at monomials of partitions, which are all the code keeps"
  },
  {
   "property": "C77",
   "status": "proved",
   "theorems": [
    "C77_j_expansion",
    "C77_j_coefficients",
    "C77_jp_expansion",
    "C77_jq_expansion",
    "C77_js_expansion_refuted",
    "C77_js_family_dependent"
   ],
   "note": "the js part is a refutation of the natural expectation"
  },
  {
   "property": "C78",
   "status": "proved",
   "theorems": [
    "C78_Q_is_multiple_of_P",
    "C78_tableaux",
    "C78_readme_GP_refuted"
   ],
   "note": "schur_q = 2**(len mu - len nu) schur_p and the matching count of tableaux, by toggling primes on the diagonal; the README's GP/GQ comparison is refuted by a witness"
  },
  {
   "property": "C79",
   "status": "proved",
   "theorems": [
    "C79_stable_grothendieck",
    "C79_signed_involution_stable_grothendieck",
    "C79_involution_stable_grothendieck",
    "C79_symplectic_stable_grothendieck"
   ],
   "note": "the degree shift of the involution versions is the least length of a word, see C80"
  },
  {
   "property": "C80",
   "status": "proved",
   "theorems": [
    "C80_involution_length",
    "C80_fpf_involution_length",
    "C80_get_involution_word",
    "C80_from_involution_word",
    "C80_get_fpf_involution_word",
    "C80_signed_fpf_word_refuted",
    "C80_from_fpf_involution_word",
    "C80_fpf_involution_words"
   ],
   "note": "from_fpf_involution_word on positive letters; the cache histories consist of calls on fixed-point-free involutions of 1..n"
  },
  {
   "property": "C81",
   "status": "proved",
   "theorems": [
    "C81_bruhat_covers",
    "C81_involution_bruhat_covers_refuted",
    "C81_fpf_involution_bruhat_covers_refuted"
   ],
   "note": "Covers exact for all signed permutations; the two involution versions are refuted with a witness."
  },
  {
   "property": "C82",
   "status": "proved",
   "theorems": [
    "C82_tau",
    "C82_upper_involution_transitions",
    "C82_lower_involution_transitions",
    "C82_upper_fpf_involution_transitions",
    "C82_lower_fpf_involution_transitions",
    "C82_upper_transitions_refuted",
    "C82_lower_transitions_refuted"
   ],
   "note": "upper_transitions and lower_transitions are proved empty on every input, contrary to their docstrings. tau is described by its effect, its identification with Bruhat-maximal covers in the literature is not formalised."
  },
  {
   "property": "C83",
   "status": "proved",
   "theorems": [
    "C83_all",
    "C83_all_signed",
    "C83_involutions",
    "C83_involutions_fpf",
    "C83_involutions_signed",
    "C83_involutions_signed_fpf_refuted",
    "C83_fpf_involutions"
   ],
   "note": "Each enumerator yields exactly the described objects, once each, with a bound on the loop iterations; the flag fpf is shown to be ignored together with signed=True."
  },
  {
   "property": "C84",
   "status": "proved",
   "theorems": [
    "C84_total",
    "C84_modes",
    "C84_record"
   ],
   "note": "all words, both modes, all records"
  },
  {
   "property": "C85",
   "status": "proved",
   "theorems": [
    "C85_inverse",
    "C85_injective",
    "C85_negative_refuted"
   ],
   "note": "default records; nonnegative letters; refuted with a negative letter"
  },
  {
   "property": "C86",
   "status": "proved",
   "theorems": [
    "C86_get_grassmannian",
    "C86_shape_bijection",
    "C86_is_grassmannian",
    "C86_one_descent_refuted",
    "C86_signed_refuted",
    "C86_grassmannians",
    "C86_grassmannians_rank_refuted"
   ],
   "note": "all parts, all unsigned permutations, all n; three tempting readings are refuted by witnesses"
  },
  {
   "property": "C87",
   "status": "proved",
   "theorems": [
    "C87_involution_code",
    "C87_involution_shape",
    "C87_not_involution",
    "C87_get_inv_grassmannian",
    "C87_zero_part_refuted",
    "C87_is_inv_grassmannian",
    "C87_inv_grassmannians",
    "C87_inv_grassmannians_rank_refuted"
   ],
   "note": "all unsigned involutions, all strict partitions, all n"
  },
  {
   "property": "C88",
   "status": "proved",
   "theorems": [
    "C88_fpf_involution_code",
    "C88_fpf_involution_shape",
    "C88_not_fpf",
    "C88_get_fpf_grassmannian",
    "C88_fpf_grassmannians",
    "C88_rank_refuted",
    "C88_is_fpf_grassmannian_refuted"
   ],
   "note": "all canonical permutations, all strict partitions, all n; with explicit bounds on the matching loop"
  },
  {
   "property": "C89",
   "status": "proved",
   "theorems": [
    "C89_vertical_strips",
    "C89_decompose_rims",
    "C89_rims",
    "C89_rims_strict",
    "C89_shifted_ribbon",
    "C89_shifted_ribbons_refuted"
   ],
   "note": "all strict partitions, all bounds, all compositions; shifted_ribbons shown to raise for every n >= 1"
  },
  {
   "property": "C90",
   "status": "proved",
   "theorems": [
    "C90_KOG",
    "C90_KOG_negative",
    "C90_KOG_counts",
    "C90_KOG_counts_negative",
    "C90_by_shape"
   ],
   "note": "all strict mu, all p, all set orders"
  },
  {
   "property": "C91",
   "status": "proved",
   "theorems": [
    "C91_KLG",
    "C91_KLG_counts",
    "C91_KLG_counts_negative",
    "C91_by_shape",
    "C91_negative_refuted"
   ],
   "note": "all strict mu, all p >= 0, all set orders; negative p refuted"
  },
  {
   "property": "C92",
   "status": "proved",
   "theorems": [
    "C92_rule",
    "C92_closed",
    "C92_inverse",
    "C92_weight",
    "C92_strings",
    "C92_range",
    "C92_generator",
    "C92_istrings_refuted"
   ],
   "note": "all skew shapes, all n, set-valued and ordinary tableaux; istrings of the tableau generator refuted"
  },
  {
   "property": "C93",
   "status": "proved",
   "theorems": [
    "C93_reading",
    "C93_decode",
    "C93_operators",
    "C93_inverse",
    "C93_weight",
    "C93_strings",
    "C93_shifted_refuted"
   ],
   "note": "all partition shapes, all multiset-valued semistandard tableaux, all i; closure refuted for shifted shapes"
  },
  {
   "property": "C94",
   "status": "proved",
   "theorems": [
    "C94_get_atoms",
    "C94_get_involution_words",
    "C94_not_involution",
    "C94_get_min_atom",
    "C94_atoms_by_positions",
    "C94_get_fpf_atoms",
    "C94_fpf_atoms_assertion",
    "C94_get_atoms_d",
    "C94_atoms_d_once_refuted"
   ],
   "note": "all unsigned involutions, all call histories, all set orders; signed involutions are modelled but nothing is claimed about their atoms"
  },
  {
   "property": "C95",
   "status": "proved",
   "theorems": [
    "C95_little_bump",
    "C95_transition",
    "C95_injective",
    "C95_not_reduced",
    "C95_unchanged",
    "C95_little_bump_at",
    "C95_deletion_refuted"
   ],
   "note": "all words with letters >= 0; the transition statement and the two-position form for letters >= 1; the exception branch is reachable only for deletions that are not reduced"
  },
  {
   "property": "C96",
   "status": "proved",
   "theorems": [
    "C96_involution_little_bump",
    "C96_injective",
    "C96_involution_little_bump_at",
    "C96_not_reduced",
    "C96_unchanged",
    "C96_deletion_refuted"
   ],
   "note": "letters >= 1 (involutions without sign changes); the exception branch is reachable only for deletions that are not shortest"
  },
  {
   "property": "C97",
   "status": "proved",
   "theorems": [
    "C97_is_semistandard",
    "C97_is_standard",
    "C97_standardize",
    "C97_standardized_order",
    "C97_destandardize"
   ],
   "note": "Model in M_Tableaux.v, specification in S_Standardize.v. Tableaux with an empty cell (ValueError) or an entry 0 are outside the hypotheses."
  },
  {
   "property": "C98",
   "status": "proved",
   "theorems": [
    "C98_get_horizontals",
    "C98_get_verticals",
    "C98_row_groups",
    "C98_column_groups",
    "C98_is_group_start",
    "C98_is_group_end",
    "C98_singletons",
    "C98_is_highest_weight",
    "C98_is_semistandard",
    "C98_diagonal_primes",
    "C98_primed_groups",
    "C98_primed_diagonal_cells",
    "C98_wrong_sign",
    "C98_valued_set_tableaux"
   ],
   "note": "Model in M_VST.v, specification in S_VST.v (grouped, row_group, column_group). The while loops take fuel; any fuel of at least the number of cells suffices."
  },
  {
   "property": "C99",
   "status": "proved",
   "theorems": [
    "C99_unprime",
    "C99_unprime_diagonal",
    "C99_unprime_idempotent",
    "C99_unprime_diagonal_closed",
    "C99_fibres",
    "C99_diagonal",
    "C99_hinge",
    "C99_hinge_index",
    "C99_unprime_semistandard_refuted"
   ],
   "note": "Model in M_VST.v, specification in S_Unprime.v. That unprime keeps semistandardness is refuted."
  },
  {
   "property": "C100",
   "status": "proved",
   "theorems": [
    "C100_all_interstandard",
    "C100_not_strict",
    "C100_is_interstandard",
    "C100_test_agrees",
    "C100_same_row",
    "C100_same_column",
    "C100_same_column_refuted"
   ],
   "note": "Model in M_Inter.v, specification in S_Inter.v. in_same_group for vertical neighbours is refuted; C100_same_column says what it answers instead."
  },
  {
   "property": "C101",
   "status": "proved",
   "theorems": [
    "C101_onto",
    "C101_standard",
    "C101_negative_refuted"
   ],
   "note": "Model in M_Insertion.v, specification in S_Insertion.v. The restriction to entries >= 0 of P is needed (C101_negative_refuted)."
  },
  {
   "property": "C102",
   "status": "proved",
   "theorems": [
    "C102_row_reading",
    "C102_transposed",
    "C102_permutation",
    "C102_class",
    "C102_converse_refuted"
   ],
   "note": "Model in M_Insertion.v, specification in S_HeckeEquiv.v and S_PermGroth.v (hecke_word)."
  },
  {
   "property": "C103",
   "status": "proved",
   "theorems": [
    "C103_elements",
    "C103_operator",
    "C103_arrows"
   ],
   "note": "Model in M_WordCrystal.v over M_Insertion.v, M_TabCrystal.v and M_PermWords models; hypotheses on set iteration orders and the cache as in the Hecke word properties."
  },
  {
   "property": "C104",
   "status": "proved",
   "theorems": [
    "C104_insert",
    "C104_column",
    "C104_unprime",
    "C104_settled",
    "C104_idempotent"
   ],
   "note": "Model in M_DiagUnprime.v, specification in S_DiagUnprime.v. That rows stay ordered (semistandardness of the result) is not part of the claim."
  },
  {
   "property": "C105",
   "status": "proved",
   "theorems": [
    "C105_total",
    "C105_unshifted",
    "C105_shifted"
   ],
   "note": "Model in M_SkewKey.v over M_Partitions.v, specification in S_SkewKey.v and S_Partitions.v."
  },
  {
   "property": "C106",
   "status": "proved",
   "theorems": [
    "C106_from_skew",
    "C106_key",
    "C106_key_shifted",
    "C106_order",
    "C106_empty_refuted"
   ],
   "note": "Model in M_FromSkew.v over M_Partitions.v, specification in S_SkewKey.v and S_Partitions.v. C106_empty_refuted: on the empty set the last loop does not end for any amount of fuel."
  },
  {
   "property": "C107",
   "status": "proved",
   "theorems": [
    "C107_copieri"
   ],
   "note": "Model in M_Copieri.v over M_Semistandard.v and M_Partitions.v; holds for every iteration order of the sets."
  },
  {
   "property": "C108",
   "status": "proved",
   "theorems": [
    "C108_refined_p",
    "C108_refined_q",
    "C108_one_key",
    "C108_sum"
   ],
   "note": "Model in M_Refined.v over M_Dual.v and M_RPP.v, specification in S_Refined.v and S_Dual.v; holds for every iteration order of the sets."
  },
  {
   "property": "C109",
   "status": "proved",
   "theorems": [
    "C109_shifted_growth",
    "C109_word"
   ],
   "note": "Model in M_SGrowth.v over M_Partitions.v, specification in S_SGrowth.v and S_Partitions.v; holds for every iteration order of the sets. Dictionaries with several ones in a column are not covered (the code asserts or raises on some of them)."
  },
  {
   "property": "C110",
   "status": "proved",
   "theorems": [
    "C110_tableaux"
   ],
   "note": "Model in M_FromSGrowth.v over M_SGrowth.v and M_Tableaux.v; holds for every iteration order of the sets. That p and q are those of orthogonal_hecke, which the tests check, is not claimed."
  },
  {
   "property": "C111",
   "status": "proved",
   "theorems": [
    "C111_restrict",
    "C111_unique",
    "C111_prefix",
    "C111_letters"
   ],
   "note": "C111_prefix is about the recording tableau of a prefix, C111_letters about the other tableau of the subword of the letters at most k."
  },
  {
   "property": "C112",
   "status": "proved",
   "theorems": [
    "C112_backward",
    "C112_forward",
    "C112_not_positive",
    "C112_weight"
   ],
   "note": "Model in M_VSTMoves.v; the fuel is that of get_verticals/get_horizontals (C98), shown sufficient. C112_forward_example shows that the AssertionError does occur for tableaux that are not shifted; that it never occurs for semistandard shifted ones, and where exactly the groups move, is not claimed. middle_transition is not modelled."
  }
 ]
}