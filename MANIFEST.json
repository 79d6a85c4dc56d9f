{
 "claims": [
  {
   "property": "C01",
   "status": "proved",
   "theorems": [
    "kpack_roundtrip"
   ],
   "note": ""
  },
  {
   "property": "C02",
   "status": "proved",
   "theorems": [
    "kunpack_bijection"
   ],
   "note": ""
  },
  {
   "property": "C03",
   "status": "proved",
   "theorems": [
    "kpacker_new_exact",
    "kpacker_push_exact",
    "kpack_pad",
    "kunpacker_new_exact",
    "kunpacker_pops_exact"
   ],
   "note": ""
  },
  {
   "property": "C04",
   "status": "proved",
   "theorems": [
    "kpack_no_ub"
   ],
   "note": ""
  },
  {
   "property": "C05",
   "status": "proved",
   "theorems": [
    "kpack_divcnst_exact"
   ],
   "note": ""
  },
  {
   "property": "C06",
   "status": "proved",
   "theorems": [
    "pm_construct_exact",
    "pm_construct_iter_exact",
    "pm_equality_exact",
    "pm_unit_exact"
   ],
   "note": ""
  },
  {
   "property": "C07",
   "status": "proved",
   "theorems": [
    "pm_compatible_exact"
   ],
   "note": ""
  },
  {
   "property": "C08",
   "status": "proved",
   "theorems": [
    "pm_overflow_check_exact",
    "pm_mul_after_check"
   ],
   "note": ""
  },
  {
   "property": "C09",
   "status": "proved",
   "theorems": [
    "pm_overflow_check_exact",
    "pm_overflow_check_deterministic",
    "dpm_overflow_check_exact",
    "dpm_overflow_check_deterministic"
   ],
   "note": "both monomial kinds; tbb::parallel_reduce is modelled as any tree of sequential runs, splits and joins"
  },
  {
   "property": "C10",
   "status": "proved",
   "theorems": [
    "pm_hash_homomorphic",
    "dpm_hash_homomorphic"
   ],
   "note": ""
  },
  {
   "property": "C100",
   "status": "proved",
   "theorems": [
    "program_exact",
    "programs_equal",
    "program_value"
   ],
   "note": "Stated for runs in which every operation returns normally (the properties of the single operations say when they throw). Integration and substitution of polynomials are not among the operations of the programs (C45, C43)."
  },
  {
   "property": "C101",
   "status": "proved",
   "theorems": [
    "ps_program_exact",
    "ps_programs_equal",
    "truncation_commutes"
   ],
   "note": "Stated for runs in which every operation returns normally (C50, C51, C52 say when they throw). Derivatives, substitutions and unset_truncation lose terms within the truncation and are not among the operations (C53, C92, C93); with negative degrees the statement fails (ps_mul_associative_refuted, C97)."
  },
  {
   "property": "C102",
   "status": "proved",
   "theorems": [
    "history_exact",
    "history_frame",
    "histories_equal",
    "copy_assign_refuted"
   ],
   "note": "The runs are those of the nondeterministic model of exceptions (C62, C86); calls that only read their operands (products, diff, trim, add_symbols, truncation of a copy, subs) are modelled as atomic: they work on objects of their own, which an exception destroys. copy_assign_refuted shows that the exception for copy assignment is necessary. Power series are not among the variables (C62 for their single operations)."
  },
  {
   "property": "C103",
   "status": "proved",
   "theorems": [
    "mul_exceptions",
    "mul_runs"
   ],
   "note": "The nondeterministic model of exceptions of C62. A parallel loop in which a task throws leaves the tables with any contents; without exceptions the tasks are run in order (C35: the schedule does not matter). The place of a new term in a table is chosen as for its final coefficient."
  },
  {
   "property": "C104",
   "status": "proved",
   "theorems": [
    "addsub_destroys",
    "in_place_destroys",
    "scalar_mul_destroys",
    "in_place_scalar_mul_destroys",
    "ps_addsub_destroys",
    "ps_in_place_destroys",
    "sub_destroys_refuted"
   ],
   "note": "Every location of the store is covered: operands (LX, LY), extended copies (LA, LB), return value (LR). sub_destroys_refuted shows that the exception in the statement is real: a debug build would fail an assertion in the destructor.."
  },
  {
   "property": "C105",
   "status": "proved",
   "theorems": [
    "table_stats_exact",
    "table_stats_unique"
   ],
   "note": "The text of the quotient of two doubles (operator<<) is a parameter; the rest of the text is exact."
  },
  {
   "property": "C106",
   "status": "proved",
   "theorems": [
    "ps_history_exact",
    "ps_history_frame",
    "ps_histories_equal"
   ],
   "note": "The runs are those of the nondeterministic model of exceptions (C62, C86); calls that only read their operands (products, pow, trim, add_symbols, sums with a number that make a new object) are modelled as atomic: they work on objects of their own, which an exception destroys. The cache of powers is any one left by earlier calls. A series left by an interrupted in-place call is valid, but the program may only assign to it or copy it. Derivatives, substitutions and unset_truncation lose terms within the truncation and are not among the statements (C101)."
  },
  {
   "property": "C107",
   "status": "proved",
   "theorems": [
    "interchangeable_equal",
    "equal_interchangeable",
    "equal_results_interchangeable",
    "presentation_laws",
    "subs_sum",
    "subs_product",
    "subs_power",
    "subs_twice",
    "subs_none",
    "subs_number",
    "subs_diff",
    "diff_sum",
    "diff_product",
    "program_diff_commute",
    "low_sum",
    "low_in_sum",
    "low_low",
    "low_in_low_in",
    "low_product",
    "low_in_product",
    "low_power",
    "low_in_power",
    "low_in_subs",
    "diff_low",
    "diff_low_in",
    "arithmetic_exponents",
    "exponents_nonnegative"
   ],
   "note": "The laws are between programs; interchangeable_equal carries each to the results of all runs of the two programs that end without an exception (P_Expr.v, C100). The conditions on exponents and degrees are on the terms of the denotation; arithmetic_exponents and exponents_nonnegative give them for sums, products and powers of objects with such exponents. The tags must be equal for the comparison. For power series with truncations the corresponding laws fail (C101, ps_mul_associative_refuted and others)."
  },
  {
   "property": "C108",
   "status": "proved",
   "theorems": [
    "alike_equal",
    "equal_alike",
    "result_alike",
    "same_alike",
    "ring_laws",
    "given_order",
    "product_beyond",
    "power_beyond",
    "taylor_stops",
    "geometric_inverse"
   ],
   "note": "The laws are between programs; alike_equal carries each to the results of all runs of the two programs that end without an exception (P_PSExpr.v, C101). The least degrees are those of the terms of the denotation; given_order gives them for objects. Setting the truncation is a step of the runs, not of the programs. Derivatives, substitutions and unset_truncation are not among the operations (C101)."
  },
  {
   "property": "C109",
   "status": "proved",
   "theorems": [
    "subs_poly_exact",
    "subs_poly_product",
    "subs_poly_sum",
    "subs_poly_removes",
    "subs_poly_unaffected",
    "subs_poly_compose"
   ],
   "note": "f_subst (PSSubsSpec.v) is the expansion on formal sums. That the powers given to subs are powers is a hypothesis; pow satisfies it (pow_exact, C46; shown in ex_subst_exact). subs_poly_sum takes the sum's own admissibility (no negative power of a substituted symbol) as a hypothesis; subs_poly_product derives it. C43 states the values at points, C93 the truncated version."
  },
  {
   "property": "C11",
   "status": "proved",
   "theorems": [
    "pm_degree_exact",
    "pm_p_degree_exact",
    "pm_degree_product"
   ],
   "note": ""
  },
  {
   "property": "C12",
   "status": "proved",
   "theorems": [
    "pm_merge_symbols_exact"
   ],
   "note": ""
  },
  {
   "property": "C13",
   "status": "proved",
   "theorems": [
    "pm_trim_identify_exact",
    "pm_trim_exact"
   ],
   "note": ""
  },
  {
   "property": "C14",
   "status": "proved",
   "theorems": [
    "pm_diff_exact",
    "pm_integrate_exact"
   ],
   "note": ""
  },
  {
   "property": "C15",
   "status": "proved",
   "theorems": [
    "pm_pow_exact"
   ],
   "note": ""
  },
  {
   "property": "C16",
   "status": "proved",
   "theorems": [
    "pm_evaluate_exact",
    "pm_subs_exact"
   ],
   "note": "obake::pow on the value type is a parameter that may throw"
  },
  {
   "property": "C17",
   "status": "proved",
   "theorems": [
    "dpm_construct_exact",
    "dpm_unit_exact",
    "dpm_equality_exact",
    "dpm_mul_after_check",
    "dpm_degree_exact",
    "dpm_p_degree_exact",
    "dpm_merge_symbols_exact",
    "dpm_trim_exact",
    "dpm_trim_identify_exact",
    "dpm_pow_exact",
    "dpm_diff_exact",
    "dpm_integrate_exact",
    "dpm_evaluate_exact",
    "dpm_subs_exact"
   ],
   "note": ""
  },
  {
   "property": "C18",
   "status": "proved",
   "theorems": [
    "dpm_overflow_check_exact",
    "dpm_mul_after_check"
   ],
   "note": ""
  },
  {
   "property": "C19",
   "status": "proved",
   "theorems": [
    "merge_symbol_sets_exact"
   ],
   "note": ""
  },
  {
   "property": "C20",
   "status": "proved",
   "theorems": [
    "sm_intersect_idx_exact",
    "ss_intersect_idx_exact"
   ],
   "note": ""
  },
  {
   "property": "C21",
   "status": "proved",
   "theorems": [
    "safe_int_add_exact",
    "safe_int_sub_exact"
   ],
   "note": "both the builtin and the portable implementation, all widths and bool"
  },
  {
   "property": "C22",
   "status": "proved",
   "theorems": [
    "safe_convert_int_exact",
    "safe_cast_int_exact",
    "safe_convert_mp_exact"
   ],
   "note": "mp++ conversions are represented by their documented contract"
  },
  {
   "property": "C23",
   "status": "proved",
   "theorems": [
    "to_string_exact"
   ],
   "note": ""
  },
  {
   "property": "C24",
   "status": "proved",
   "theorems": [
    "invariants_hold",
    "ps_invariants_hold"
   ],
   "note": "Closure (made, made_ps) of the modelled public operations: every series obtained by any finite sequence of calls satisfies the invariants (no zero coefficient, no duplicate key, compatible keys, right segment, bounded tables). User-inserted keys are valid encodings (see dpm_compatible_exact_refuted); scalar addition needs the unit key to be representable (scalar_add_compatible_refuted); truncated products need a degree type which holds the sums (dpm_truncated_mul_refuted). Serialization: C47. Exceptions part-way: C62."
  },
  {
   "property": "C25",
   "status": "proved",
   "theorems": [
    "add_term_exact",
    "add_term_rejects"
   ],
   "note": ""
  },
  {
   "property": "C26",
   "status": "proved",
   "theorems": [
    "iteration_exact",
    "iterator_equality"
   ],
   "note": ""
  },
  {
   "property": "C27",
   "status": "proved",
   "theorems": [
    "segmentation_unobservable",
    "mul_unobservable"
   ],
   "note": ""
  },
  {
   "property": "C28",
   "status": "proved",
   "theorems": [
    "add_sub_exact",
    "add_commutative"
   ],
   "note": ""
  },
  {
   "property": "C29",
   "status": "proved",
   "theorems": [
    "in_place_exact"
   ],
   "note": ""
  },
  {
   "property": "C30",
   "status": "partial",
   "theorems": [
    "mixed_sum_partial",
    "mixed_sum_refuted"
   ],
   "note": "False of the code: the zero check of series_sym_extender for differing coefficient types is inverted (series.hpp:547-548); refuted with a concrete witness; proved when the conversion maps no nonzero coefficient to zero."
  },
  {
   "property": "C31",
   "status": "proved",
   "theorems": [
    "equality_exact",
    "equality_equivalence"
   ],
   "note": ""
  },
  {
   "property": "C32",
   "status": "proved",
   "theorems": [
    "negate_exact",
    "scalar_mul_exact",
    "scalar_div_exact",
    "scalar_addsub_exact"
   ],
   "note": ""
  },
  {
   "property": "C33",
   "status": "proved",
   "theorems": [
    "of_coefficient_exact",
    "to_coefficient_exact",
    "convert_exact"
   ],
   "note": ""
  },
  {
   "property": "C34",
   "status": "proved",
   "theorems": [
    "mul_exact",
    "mul_commutative",
    "mul_associative",
    "mul_distributive",
    "mul_unobservable"
   ],
   "note": ""
  },
  {
   "property": "C35",
   "status": "proved",
   "theorems": [
    "mt_schedule_independent",
    "mt_race_free",
    "mt_products_once",
    "mt_terminates",
    "mt_progress"
   ],
   "note": "Interleaving semantics of the segment tasks for any split into blocks, with exceptions and cancellation."
  },
  {
   "property": "C36",
   "status": "partial",
   "theorems": [
    "truncated_mul_exact",
    "truncated_mul_is_truncation",
    "pm_truncated_mul",
    "pm_truncated_mul_fails",
    "dpm_truncated_mul_partial",
    "dpm_truncated_mul_refuted"
   ],
   "note": "Proved for packed_monomial (total and partial degree), d_packed_monomial (total degree; partial degree with unsigned exponents); for signed d_packed_monomial and partial degree the code has undefined behaviour for some representable products (refuted with a witness). Limits restricted to those compared without change of value (see C38)."
  },
  {
   "property": "C37",
   "status": "proved",
   "theorems": [
    "filter_exact",
    "truncate_degree_exact",
    "truncate_p_degree_exact",
    "pm_truncate_degree"
   ],
   "note": ""
  },
  {
   "property": "C38",
   "status": "partial",
   "theorems": [
    "negative_limit_partial",
    "negative_limit_refuted"
   ],
   "note": "False of the code when the limit type is not wider than the unsigned exponent type (refuted: the limit -1 is converted to the largest value and nothing is truncated); proved when the signed limit type is wider."
  },
  {
   "property": "C39",
   "status": "proved",
   "theorems": [
    "degree_exact",
    "p_degree_exact"
   ],
   "note": ""
  },
  {
   "property": "C40",
   "status": "partial",
   "theorems": [
    "trim_exact_partial",
    "trim_segments_refuted"
   ],
   "note": "Everything but the segment count, which trim does not keep (series.hpp:4158; refuted)."
  },
  {
   "property": "C41",
   "status": "proved",
   "theorems": [
    "add_symbols_exact"
   ],
   "note": ""
  },
  {
   "property": "C42",
   "status": "proved",
   "theorems": [
    "evaluate_exact",
    "evaluate_respects_equality",
    "evaluate_additive",
    "evaluate_multiplicative"
   ],
   "note": ""
  },
  {
   "property": "C43",
   "status": "proved",
   "theorems": [
    "subs_scalar_exact",
    "subs_scalar_removes",
    "subs_scalar_value",
    "subs_poly_value",
    "pow_value"
   ],
   "note": "Scalars: exact coefficients, never throws when the powers exist. Polynomials: the value at every point, in every commutative ring; pow_value shows that the powers computed by pow meet the hypothesis."
  },
  {
   "property": "C44",
   "status": "proved",
   "theorems": [
    "diff_exact",
    "diff_additive",
    "diff_leibniz"
   ],
   "note": "For coefficients that are constants for the symbol (no coefficient derivative), over any commutative ring with an embedding of the integers."
  },
  {
   "property": "C45",
   "status": "proved",
   "theorems": [
    "integrate_exact",
    "diff_integrate"
   ],
   "note": "For coefficient types with exact division by nonzero integers (rationals)."
  },
  {
   "property": "C46",
   "status": "proved",
   "theorems": [
    "pow_exact",
    "pow_unobservable",
    "pow_zero",
    "pow_rejects",
    "pow_single_term",
    "identical_same_hash",
    "equal_truncations_same_hash",
    "ps_identical_same_hash"
   ],
   "note": "Every cache reachable by calls of pow (any arguments, environments, outcomes; calls are serialised by the mutex) gives the exact n-th power or the exception of an unrepresentable product; coefficients are a commutative ring, the power of a coefficient is a parameter."
  },
  {
   "property": "C47",
   "status": "proved",
   "theorems": [
    "series_round_trip",
    "series_truncated_archive",
    "series_bad_segments",
    "symbol_set_round_trip",
    "pm_round_trip",
    "dpm_round_trip",
    "trunc_round_trip",
    "trunc_bad_index",
    "pm_ps_round_trip",
    "dpm_ps_round_trip"
   ],
   "note": "An archive is the sequence of values written; any previous content of the object; archives cut at any point are rejected and leave the object cleared."
  },
  {
   "property": "C48",
   "status": "partial",
   "theorems": [
    "printed_text_reads_back_partial",
    "dpm_printed_text_reads_back_partial",
    "text_determines_terms",
    "dpm_text_determines_terms",
    "monomial_text_exact",
    "monomial_text_reads_back",
    "nested_text",
    "symbol_one_refuted",
    "three_levels_refuted"
   ],
   "note": "Proved for integer coefficients and identifier names (reading the text back gives the terms), and the exact text for series of series; refuted in general: a symbol named 1 is dropped, and with three levels of series parentheses are lost."
  },
  {
   "property": "C49",
   "status": "partial",
   "theorems": [
    "names_kept_partial",
    "dpm_names_kept_partial",
    "monomial_text_exact",
    "names_kept_refuted"
   ],
   "note": "Proved for all names without '+' and any coefficients, text and TeX; refuted for names in which '+-' occurs."
  },
  {
   "property": "C50",
   "status": "proved",
   "theorems": [
    "ps_add_sub_exact",
    "ps_scalar_exact",
    "ps_mul_exact",
    "pm_ps_mul_exact"
   ],
   "note": "Any key and coefficient type satisfying the laws; the condition on sums of degrees in ps_mul_exact always holds for packed_monomial (pm_ps_mul_exact), and for d_packed_monomial with total truncation or unsigned exponents; the remaining case is dpm_truncated_mul_refuted."
  },
  {
   "property": "C51",
   "status": "proved",
   "theorems": [
    "ps_truncate_exact",
    "set_truncation_exact",
    "set_truncation_p_exact",
    "unset_truncation_exact"
   ],
   "note": "Includes the state left behind by exceptions."
  },
  {
   "property": "C52",
   "status": "partial",
   "theorems": [
    "ps_pow_exact_partial",
    "ps_pow_unobservable",
    "ps_pow_truncated_exactly_refuted"
   ],
   "note": "Proved: for every history of the cache pow is the power with truncated products, carries the truncation, and equals the truncated exact power if no term has a negative degree in the counted symbols (or there is at most one term). The unconditional statement is false of the code: ps_pow_truncated_exactly_refuted, (a + a^-1)^3 with limit 1."
  },
  {
   "property": "C53",
   "status": "proved",
   "theorems": [
    "ps_diff_exact",
    "ps_integrate_exact",
    "ps_integrate_truncates",
    "ps_int_integrate_exact"
   ],
   "note": "diff of power series within their truncation stays within it; integrate is the truncated exact integral."
  },
  {
   "property": "C54",
   "status": "proved",
   "theorems": [
    "mutual_exclusion",
    "released_lock_acquired",
    "lock_never_stuck",
    "sections_serialise",
    "no_lost_update"
   ],
   "note": "Any number of threads, all interleavings of atomic steps (sequential consistency)."
  },
  {
   "property": "C55",
   "status": "proved",
   "theorems": [
    "one_storage_per_type",
    "distinct_storage",
    "storage_allocated",
    "storage_size",
    "failure_recoverable",
    "fetch_returns"
   ],
   "note": "All interleavings; failing allocations included."
  },
  {
   "property": "C56",
   "status": "partial",
   "theorems": [
    "dpm_compatible_sound_partial",
    "dpm_compatible_exact_refuted"
   ],
   "note": "The full statement is false of the code: a partially filled last pack whose unused slots are nonzero is accepted (refuted with a concrete witness). Proved: soundness, exact characterisation of the test, and exactness when the number of symbols is a multiple of the pack size."
  },
  {
   "property": "C57",
   "status": "partial",
   "theorems": [
    "dpm_degree_after_check_refuted",
    "dpm_degree_after_check_unsigned_partial"
   ],
   "note": "False for signed T (intermediate running sums may leave T, refuted with a witness); proved for unsigned T."
  },
  {
   "property": "C58",
   "status": "partial",
   "theorems": [
    "add_keeps_tag_partial",
    "add_keeps_tag_refuted"
   ],
   "note": "False when the symbol sets differ (the result is default-tagged); proved for identical symbol sets."
  },
  {
   "property": "C59",
   "status": "partial",
   "theorems": [
    "scalar_add_compatible_refuted",
    "of_coefficient_exact",
    "scalar_addsub_exact"
   ],
   "note": "False for symbol sets too large for the key type (refuted); proved when the unit key fits."
  },
  {
   "property": "C60",
   "status": "proved",
   "theorems": [
    "make_polynomials_exact",
    "make_polynomials_ss_exact",
    "make_p_series_exact",
    "make_p_series_t_exact",
    "make_p_series_p_exact"
   ],
   "note": "For both key types (pm_constructs, dpm_constructs in P_Gen.v)."
  },
  {
   "property": "C61",
   "status": "partial",
   "theorems": [
    "constructed_once",
    "get_constructed_partial",
    "get_constructed_refuted"
   ],
   "note": "At most one construction always; a constructed object for programs of one module; refuted with two modules, where a second module can get the storage before the first one has constructed the object."
  },
  {
   "property": "C62",
   "status": "proved",
   "theorems": [
    "add_term_exceptions",
    "in_place_scalar_exceptions",
    "in_place_exceptions",
    "addsub_exceptions",
    "filter_exceptions",
    "negate_exceptions",
    "scalar_mul_exceptions",
    "in_place_scalar_mul_exceptions",
    "ps_addsub_exceptions",
    "in_place_runs",
    "addsub_runs",
    "filter_runs",
    "scalar_mul_runs",
    "negate_invariants_refuted"
   ],
   "note": "A nondeterministic model of exceptions (ExnModel.v): any step may throw and a throwing coefficient operation leaves any value. negate is not in the list of the property: negate_exceptions needs that the throwing negation does not leave a zero, and negate_invariants_refuted shows that this is necessary. The *_runs theorems show that the runs without exceptions exist. Exceptions within polynomial multiplication: C103, powers: C86; within substitution and calculus they are not modelled."
  },
  {
   "property": "C63",
   "status": "partial",
   "theorems": [
    "set_truncation_exceptions",
    "set_truncation_p_exceptions",
    "ps_in_place_exceptions",
    "ps_in_place_scalar_exceptions",
    "ps_keeps_truncation_refuted",
    "ps_respects_truncation_refuted"
   ],
   "note": "set_truncation: proved. In-place sums: the class invariants hold (ps_in_place_exceptions), but both parts of the property are refuted: the truncation can be lost if x has to be extended, and if x adopts the truncation of y and the truncation throws (degree overflow of d_packed_monomial) x has a truncation its terms exceed."
  },
  {
   "property": "C64",
   "status": "proved",
   "theorems": [
    "estimate_exact",
    "estimate_degree_overflow",
    "estimate_sparse_exact"
   ],
   "note": "All random numbers and all splittings of parallel_reduce. The number of trials is computed in floating point: its conversion is an arbitrary partial function, and the exception of boost::numeric_cast is one of the outcomes."
  },
  {
   "property": "C65",
   "status": "partial",
   "theorems": [
    "estimate_schedule_partial",
    "estimate_schedule_refuted"
   ],
   "note": "Refuted for an implementation of std::shuffle: the index vector is copied once per block and shuffled cumulatively by the trials of the block, so the estimate depends on the splitting. Holds if no two products have the same monomial and nothing is truncated. The value of the product does not depend on it (C27, C34, C35)."
  },
  {
   "property": "C66",
   "status": "proved",
   "theorems": [
    "weak_mutual_exclusion",
    "guarded_no_race",
    "guarded_sequential",
    "weak_released_acquired",
    "orders_needed"
   ],
   "note": "An operational release/acquire memory model (modification orders with insertion, release sequences, coherence). orders_needed: with a relaxed clear or a relaxed test_and_set a race is reachable, so the theorems depend on the orders in the code."
  },
  {
   "property": "C67",
   "status": "proved",
   "theorems": [
    "mixed_mul_exact",
    "mixed_truncated_mul_exact",
    "mixed_mul_converts",
    "mixed_mul_one_type"
   ],
   "note": "The conversions of coefficients are assumed to respect sums and not to make a nonzero coefficient zero, and the multiplication of coefficients to be that of the common (commutative) type after conversion; both are shown for integers and rationals."
  },
  {
   "property": "C68",
   "status": "proved",
   "theorems": [
    "next_in_range",
    "next_bijective",
    "random_never_stuck",
    "random_in_range",
    "random_64",
    "random_128",
    "seeds_nonzero",
    "trials_differ"
   ],
   "note": "The model computes on 64-bit words as the code does. std::uniform_int_distribution and std::shuffle are not modelled."
  },
  {
   "property": "C69",
   "status": "proved",
   "theorems": [
    "byte_size_exact",
    "byte_size_unobservable",
    "avg_term_size_exact",
    "segments_exact"
   ],
   "note": "byte_size() of keys, coefficients and tags and sizeof() are parameters."
  },
  {
   "property": "C70",
   "status": "proved",
   "theorems": [
    "text_determines_truncation",
    "tex_determines_truncation",
    "ps_text_determines",
    "dpm_ps_text_determines",
    "quoted_names_refuted"
   ],
   "note": "For symbol names which are identifiers; quoted_names_refuted shows that names with quotes make different symbol sets look the same. Names of types are parameters."
  },
  {
   "property": "C71",
   "status": "proved",
   "theorems": [
    "any_cf_add_term",
    "any_cf_add_sub",
    "any_cf_in_place"
   ],
   "note": "Assumes of the coefficients only light_laws (LfSpec.v). Instantiated with IEEE double precision numbers (stdlib SpecFloat) in ex_float."
  },
  {
   "property": "C72",
   "status": "proved",
   "theorems": [
    "any_cf_mul",
    "any_cf_truncated_mul",
    "any_cf_mul_single",
    "any_cf_mul_schedule",
    "product_order_refuted"
   ],
   "note": "Assumes of the coefficients only light_laws. product_order_refuted: with 2x2 matrices as coefficients x * y is computed as y * x if x has more terms."
  },
  {
   "property": "C73",
   "status": "proved",
   "theorems": [
    "rec_add_sub",
    "rec_in_place",
    "rec_mul"
   ],
   "note": "Exceptions of coefficient operations are kept as coefficients and leave through settle (RecModel.v). Non-vacuity: ex_rec, ex_rec_throws."
  },
  {
   "property": "C74",
   "status": "partial",
   "theorems": [
    "rec_degree_partial",
    "rec_p_degree_partial",
    "rec_truncate_degree_partial",
    "rec_truncate_p_degree_partial",
    "rec_truncation_refuted",
    "rec_degree_types_refuted"
   ],
   "note": "The full statement is false: truncation drops a stored term with its whole coefficient, so monomials within the limit are lost (rec_truncation_refuted), and with degree types of different signedness a negative degree is converted to unsigned (rec_degree_types_refuted). Proved: the degree is exact when the types have the same signedness or the signed one is wider, otherwise overflow_error; truncation keeps exactly the stored terms of degree (key plus largest degree in the coefficient) at most the limit, and leaves no monomial above it. Not modelled: degree types which are not integers."
  },
  {
   "property": "C75",
   "status": "proved",
   "theorems": [
    "rec_diff_exact",
    "rec_integrate_exact"
   ],
   "note": "Two levels. Algorithm 2 of both functions (the result type is the type of the argument); algorithm 1 is not modelled. When the coefficient of a stored term overflows, the exception is the outcome (coefficient_throws)."
  },
  {
   "property": "C76",
   "status": "proved",
   "theorems": [
    "rec_evaluate_exact",
    "rec_evaluate_additive",
    "rec_evaluate_multiplicative"
   ],
   "note": "Two levels; keys, coefficients and results have values of one type."
  },
  {
   "property": "C77",
   "status": "proved",
   "theorems": [
    "rec_trim_exact"
   ],
   "note": "Two levels. The number of segments is not claimed (see C40, trim_segments_refuted)."
  },
  {
   "property": "C78",
   "status": "proved",
   "theorems": [
    "constructible_types",
    "algorithm_by_rank",
    "sum_types",
    "sum_rank",
    "sum_types_commute",
    "sum_types_associate",
    "in_place_types",
    "product_types",
    "quotient_types",
    "comparable_types",
    "in_place_sum_refuted"
   ],
   "note": "Value categories are dropped; default implementations and the multiplication of polynomials (customisation points such as those of power series are not taken)."
  },
  {
   "property": "C79",
   "status": "proved",
   "theorems": [
    "any_cf_scalar_mul",
    "any_cf_scalar_addsub",
    "any_cf_scalar_div",
    "scalar_left_refuted"
   ],
   "note": "The claim that b * x multiplies from the left is refuted; the product is always c *= b."
  },
  {
   "property": "C80",
   "status": "proved",
   "theorems": [
    "rec_scalar_mul_exact",
    "rec_scalar_addsub_exact",
    "rec_scalar_div_exact",
    "rec_scalar_div_throws"
   ],
   "note": ""
  },
  {
   "property": "C81",
   "status": "proved",
   "theorems": [
    "mixed_sum_exact",
    "mixed_in_place_exact",
    "mixed_equality_exact"
   ],
   "note": ""
  },
  {
   "property": "C82",
   "status": "proved",
   "theorems": [
    "mixed_ps_add_sub_exact",
    "mixed_ps_in_place_exact",
    "mixed_ps_mul_exact"
   ],
   "note": ""
  },
  {
   "property": "C83",
   "status": "partial",
   "theorems": [
    "int_integrate_exact",
    "int_diff_integrate",
    "int_antiderivative_partial",
    "int_antiderivative_refuted"
   ],
   "note": "The full statement is false of the code: mppp::integer division truncates, so the integral of a is 0. Proved: every coefficient of the integral is the quotient rounded towards zero, the derivative of the integral is x less the remainders, and it is x exactly if every coefficient is divisible by exponent + 1."
  },
  {
   "property": "C84",
   "status": "proved",
   "theorems": [
    "any_cf_equality",
    "number_equality_exact",
    "rec_equality",
    "rec_inner_equality",
    "rec_number_equality"
   ],
   "note": ""
  },
  {
   "property": "C85",
   "status": "partial",
   "theorems": [
    "pow_exclusive",
    "pow_calls_return_partial",
    "pow_no_livelock",
    "pow_tasks_deadlock_refuted"
   ],
   "note": "The full statement is false of the code when pow() is called inside tasks: pow_tasks_deadlock_refuted; proved for calls made by threads outside of tasks."
  },
  {
   "property": "C86",
   "status": "proved",
   "theorems": [
    "pow_exceptions",
    "pow_after_exceptions"
   ],
   "note": ""
  },
  {
   "property": "C87",
   "status": "proved",
   "theorems": [
    "rational_reads_back",
    "rational_texts_read_back",
    "dpm_rational_texts_read_back",
    "integer_tex_reads_back",
    "dpm_integer_tex_reads_back",
    "rational_texts_determine",
    "dpm_rational_texts_determine"
   ],
   "note": "the text that mp++ writes for a rational (not part of /repo) is assumed to be n/d, or n if d is 1"
  },
  {
   "property": "C88",
   "status": "proved",
   "theorems": [
    "higher_rank_exact",
    "rec_of_inner_exact",
    "rec_of_number_exact",
    "rec_to_inner_exact",
    "rec_to_number_exact",
    "rec_round_trips"
   ],
   "note": ""
  },
  {
   "property": "C89",
   "status": "proved",
   "theorems": [
    "diff_convert_exact",
    "integrate_convert_exact",
    "diff_integrate_convert"
   ],
   "note": ""
  },
  {
   "property": "C90",
   "status": "partial",
   "theorems": [
    "ps_diff_convert_exact_partial",
    "ps_integrate_convert_exact_partial",
    "ps_integrate_convert_missing_partial",
    "ps_diff_convert_truncation_refuted",
    "ps_integrate_convert_respects_refuted"
   ],
   "note": "The full statement is false of the code: ps_diff_convert_truncation_refuted and ps_integrate_convert_respects_refuted; proved for derivatives of power series with terms, and for integrals (in one of the symbols or in another) that stay within the truncation."
  },
  {
   "property": "C91",
   "status": "proved",
   "theorems": [
    "rec_pow_single_term",
    "rec_pow_exact",
    "rec_pow_unobservable",
    "rec_pow_zero_rejects",
    "rec_pow_symbols_refuted"
   ],
   "note": "About the values in all the symbols together; rec_pow_symbols_refuted shows that the symbol sets of the coefficients of the result do depend on the history."
  },
  {
   "property": "C92",
   "status": "partial",
   "theorems": [
    "ps_subs_scalar_exact_partial",
    "ps_subs_scalar_respects",
    "ps_subs_truncation_refuted",
    "ps_subs_respects_refuted"
   ],
   "note": "The full statement is false of the code: ps_subs_truncation_refuted and ps_subs_respects_refuted; proved for power series with terms: the truncation, the symbols and the coefficients up to the truncation always, the absence of terms beyond it when the exponents of the substituted symbols are not negative."
  },
  {
   "property": "C93",
   "status": "proved",
   "theorems": [
    "ps_subs_exact",
    "ps_pow_is_power"
   ],
   "note": "The powers of the values are a parameter of the substitution; ps_pow_is_power shows that pow() of power series, after any history, provides them."
  },
  {
   "property": "C94",
   "status": "partial",
   "theorems": [
    "degree_types",
    "truncation_types",
    "nested_not_truncatable",
    "truncated_product_types",
    "power_types",
    "power_repeats_types",
    "evaluation_types",
    "evaluation_unchanged",
    "substitution_types",
    "derivative_types",
    "integral_types",
    "evaluation_is_number_refuted"
   ],
   "note": "'Evaluation replaces the symbols or does not compile' is false of the code (evaluation_is_number_refuted, evaluation_unchanged); everything else is proved. The evaluation, substitution, derivative and integral theorems assume that sums, products and quotients of the non-series types have one common type (numbers)."
  },
  {
   "property": "C95",
   "status": "proved",
   "theorems": [
    "nested_text_reads_back",
    "dpm_nested_text_reads_back"
   ],
   "note": "Texts with more than fifty terms at a level are cut by the code and are outside the statement (C48 states the cut)."
  },
  {
   "property": "C96",
   "status": "proved",
   "theorems": [
    "rec_subs_exact",
    "rec_subs_removes",
    "rec_subs_value"
   ],
   "note": "Two levels; the values are numbers of the type of the innermost coefficients."
  },
  {
   "property": "C97",
   "status": "partial",
   "theorems": [
    "ps_mul_commutative",
    "ps_mul_associative_partial",
    "ps_add_associative",
    "ps_distributive_partial",
    "ps_leibniz_partial",
    "ps_truncate_multiply_partial",
    "ps_truncate_multiply_p_partial",
    "ps_mul_associative_refuted",
    "ps_distributive_refuted",
    "ps_leibniz_refuted",
    "ps_truncate_multiply_refuted"
   ],
   "note": "The unconditional laws are false of the code with negative exponents (associativity, mixed distributivity, truncation) and at the limit degree (Leibniz): witnesses; proved under exactly these conditions. Stated for operations which succeed."
  },
  {
   "property": "C98",
   "status": "proved",
   "theorems": [
    "mul_no_zero_divisors",
    "degree_product",
    "p_degree_product",
    "mul_cancel",
    "pow_degree"
   ],
   "note": "Stated for operations which succeed (C34, C39 and C46 say when they throw)."
  },
  {
   "property": "C99",
   "status": "proved",
   "theorems": [
    "pow_add",
    "pow_product",
    "pow_pow",
    "diff_pow",
    "diff_commute"
   ],
   "note": "Stated for operations which succeed (C34, C44 and C46 say when they throw). The results are compared coefficient by coefficient (C31: this is what operator== decides)."
  }
 ]
}