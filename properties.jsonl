{"id": "C01", "title": "Kronecker packing round-trips", "statement": "For every kpackable type T, every size 1..max and every vector of that many values each inside the component limits of that size, pushing the values into a kpacker succeeds and a kunpacker built from the packed value and the same size yields exactly the same values, in order.", "quantifier": "all four packable types (int32, uint32, int64, uint64), all sizes, all component vectors", "why_tests_cant": "there are about 2^64 packed values per size and type; tests sample a few random vectors", "anchors": ["include/obake/kpack.hpp: kpacker, kunpacker", "src/kpack.cpp: kpack_data"]}
{"id": "C02", "title": "Every accepted packed value has exactly one decoding", "statement": "For every type and size, a kunpacker accepts a value iff it is inside the coded limits of the size; every accepted value unpacks to components inside the component limits, and packing those gives the value back (so packing is a bijection between component vectors in range and coded values in range).", "quantifier": "all types, sizes, and all integer values of the type", "why_tests_cant": "2^32 / 2^64 values", "anchors": ["include/obake/kpack.hpp: kunpacker", "src/kpack.cpp: klims"]}
{"id": "C03", "title": "Packers reject exactly what they cannot represent", "statement": "kpacker construction fails iff size > max; each push fails with out_of_range iff the packer is full and otherwise with overflow_error iff the value is outside the component limits; kunpacker construction fails iff (size = 0 and value != 0) or size > max or the value is outside the coded limits; reading past the end fails with out_of_range; a packer that received fewer values than its size holds the same value as if zeros had been pushed.", "quantifier": "all types, sizes, push histories and values", "why_tests_cant": "all push sequences and all values", "anchors": ["include/obake/kpack.hpp: kpacker::kpacker, kpacker::operator<<, kunpacker"]}
{"id": "C04", "title": "Packing and unpacking never overflow", "statement": "No arithmetic performed by a kpacker or kunpacker that has not thrown overflows its (signed or unsigned) integer type or shifts by an invalid amount: no undefined behaviour and no wrap-around ever influences the result.", "quantifier": "all types, sizes, values, indices", "why_tests_cant": "UB on a boundary value is invisible to a passing test", "anchors": ["include/obake/kpack.hpp: kpacker::operator<<, kunpacker::operator>>"]}
{"id": "C05", "title": "Division by precomputed reciprocals is exact", "statement": "For every type, size and index used by the unpacker, the multiply-and-shift division with the precomputed constants equals true integer division by the corresponding power of delta, for every dividend of the unsigned type.", "quantifier": "all table rows/columns that the unpacker can read and all 2^32/2^64 dividends", "why_tests_cant": "the full dividend range cannot be enumerated", "anchors": ["include/obake/kpack.hpp: divcnst lambda, mulhi", "src/kpack.cpp: divcnst"]}
{"id": "C06", "title": "Packed monomial construction and observation agree", "statement": "Building a packed monomial from a list of exponents succeeds iff there are at most max-size exponents and each is inside the component limits (zero exponents gives the unit monomial); the exponents read back through any operation are the given ones; monomials over one symbol set are equal iff their exponents are equal; the default/symbol-set constructors give the unit monomial.", "quantifier": "all types, all exponent lists", "why_tests_cant": "unbounded lists/values", "anchors": ["include/obake/polynomials/packed_monomial.hpp: packed_monomial constructors, operator==, key_is_one"]}
{"id": "C07", "title": "Compatibility test is exact", "statement": "key_is_compatible on a packed monomial and a symbol set holds iff the stored value is the packing of some exponent vector of the symbol set's size (value 0 for an empty set; never for a symbol set larger than the maximum size).", "quantifier": "all types, all values of the type, all symbol set sizes", "why_tests_cant": "all 2^64 values", "anchors": ["include/obake/polynomials/packed_monomial.hpp: key_is_compatible"]}
{"id": "C08", "title": "Monomial multiplication is exponent-wise addition and cannot overflow after the range check", "statement": "If monomial_range_overflow_check accepts two ranges of compatible monomials, then for every pair taken from the two ranges monomial_mul does not overflow, yields a compatible monomial, and its exponents are the sums of the operands' exponents; the check rejects only if some pair would have an exponent outside the limits of the symbol set.", "quantifier": "all ranges (any length, any order), all pairs, all symbol set sizes, packed monomials of all 4 types", "why_tests_cant": "pairs of ranges are unbounded", "anchors": ["include/obake/polynomials/packed_monomial.hpp: monomial_mul, monomial_range_overflow_check"]}
{"id": "C09", "title": "Parallel overflow check equals the serial one", "statement": "The verdict of monomial_range_overflow_check does not depend on how the ranges are split among threads, in which order partial results are combined, or whether the serial or the parallel path is taken.", "quantifier": "all range lengths, all binary reduction trees / splits, both monomial kinds", "why_tests_cant": "schedules of parallel_reduce cannot be enumerated", "anchors": ["include/obake/polynomials/packed_monomial.hpp: monomial_range_overflow_check", "include/obake/polynomials/d_packed_monomial.hpp: same"]}
{"id": "C10", "title": "Monomial hashing is homomorphic and consistent with equality", "statement": "Equal monomials have equal hashes and hash(a*b) = hash(a)+hash(b) modulo 2^64 whenever the product does not overflow, for both packed and dynamic packed monomials; hence the segment of a product is the sum of the operands' segments modulo the number of segments.", "quantifier": "all monomials, all numbers of segments that are powers of two", "why_tests_cant": "unbounded", "anchors": ["include/obake/polynomials/packed_monomial.hpp: hash", "include/obake/polynomials/d_packed_monomial.hpp: hash", "include/obake/polynomials/monomial_homomorphic_hash.hpp"]}
{"id": "C11", "title": "Degrees are exact", "statement": "key_degree / key_p_degree of a compatible packed monomial return the mathematical sum of the (selected) exponents without overflow; the degree of a product equals the sum of degrees.", "quantifier": "all types, symbol sets, monomials, index subsets", "why_tests_cant": "2^64 values and all index subsets", "anchors": ["include/obake/polynomials/packed_monomial.hpp: key_degree, key_p_degree"]}
{"id": "C12", "title": "Extending a monomial to a larger symbol set only inserts zeros", "statement": "key_merge_symbols produces the monomial whose exponents are the old ones with zeros at exactly the inserted positions; it fails with overflow_error exactly when the new vector cannot be represented at the new size.", "quantifier": "all types, all symbol sets and insertion maps", "why_tests_cant": "unbounded", "anchors": ["include/obake/polynomials/packed_monomial.hpp: key_merge_symbols", "include/obake/polynomials/d_packed_monomial.hpp: same"]}
{"id": "C13", "title": "Trimming removes exactly the unused symbols", "statement": "key_trim_identify unmarks exactly the symbols with nonzero exponent; after processing all the terms the marked symbols are those whose exponent is zero everywhere; key_trim drops exactly the marked components and keeps the others in order; extending the trimmed monomial back gives the original.", "quantifier": "all monomials, all symbol sets, all index subsets", "why_tests_cant": "unbounded", "anchors": ["include/obake/polynomials/packed_monomial.hpp: key_trim_identify, key_trim", "include/obake/polynomials/d_packed_monomial.hpp: same"]}
{"id": "C14", "title": "Monomial differentiation and integration are exact and inverse", "statement": "monomial_diff returns the exponent and the monomial with exponent lowered by one (or 0 and the same monomial if the exponent is 0); monomial_integrate returns exponent+1 and the monomial with exponent raised by one, or fails if the exponent is -1 (domain_error) or cannot be represented; differentiating an integrated monomial returns the original one with the integration factor.", "quantifier": "all types, symbols, monomials", "why_tests_cant": "boundary exponents in 2^64 values", "anchors": ["include/obake/polynomials/packed_monomial.hpp: monomial_diff, monomial_integrate", "include/obake/polynomials/d_packed_monomial.hpp: same"]}
{"id": "C15", "title": "Monomial exponentiation is exact or fails", "statement": "monomial_pow multiplies every exponent by n, or fails with overflow_error when some product is not representable; it never returns a wrong monomial.", "quantifier": "all types, monomials, integer exponents", "why_tests_cant": "unbounded exponents", "anchors": ["include/obake/polynomials/packed_monomial.hpp: monomial_pow", "include/obake/polynomials/d_packed_monomial.hpp: same"]}
{"id": "C16", "title": "Monomial evaluation and substitution", "statement": "key_evaluate returns the product over all symbols of value^exponent; monomial_subs returns the product of value^exponent over the substituted symbols together with the monomial in which exactly those exponents are set to zero.", "quantifier": "all monomials, all value maps, any coefficient ring", "why_tests_cant": "unbounded", "anchors": ["include/obake/polynomials/packed_monomial.hpp: key_evaluate, monomial_subs", "include/obake/polynomials/d_packed_monomial.hpp: same"]}
{"id": "C17", "title": "Dynamic packed monomials behave as exponent vectors of any length", "statement": "For every pack size, a dynamic packed monomial built from any number of exponents stores ceil(n/psize) packs, reads back exactly the exponents, and multiplication, degree, symbol merging, trimming, differentiation, integration and exponentiation act on the exponent vector as on a plain vector; failures occur only for unrepresentable components. The total and partial degrees are exact whenever every running sum fits in T, and otherwise fail with overflow_error; they never return a wrong value.", "quantifier": "all T, all PSize, all numbers of symbols, all exponents", "why_tests_cant": "unbounded dimension", "anchors": ["include/obake/polynomials/d_packed_monomial.hpp"]}
{"id": "C18", "title": "Overflow check of dynamic packed monomials is sound", "statement": "If monomial_range_overflow_check accepts two ranges of compatible dynamic packed monomials then every pairwise product is exact, compatible, and its total degree is representable in T; it rejects only if the bounding boxes' sums leave the component limits or the degree range.", "quantifier": "all ranges, dimensions, pack sizes", "why_tests_cant": "unbounded", "anchors": ["include/obake/polynomials/d_packed_monomial.hpp: monomial_range_overflow_check, monomial_mul"]}
{"id": "C19", "title": "Merging symbol sets", "statement": "merge_symbol_sets(a,b) returns the sorted union of the two sets and two insertion maps such that inserting the mapped symbols into each original set at the mapped positions gives the union; the maps contain exactly the missing symbols, and the merge is commutative.", "quantifier": "all pairs of finite sorted symbol sets", "why_tests_cant": "unbounded", "anchors": ["src/symbols.cpp: merge_symbol_sets, merge_symbol_sets_compute_map"]}
{"id": "C20", "title": "Symbol intersection indices are exact", "statement": "ss_intersect_idx / sm_intersect_idx return exactly the indices (with the mapped values) in the symbol set of the symbols that occur in both arguments, in increasing order.", "quantifier": "all sets/maps", "why_tests_cant": "unbounded", "anchors": ["src/symbols.cpp: ss_intersect_idx", "include/obake/symbols.hpp: sm_intersect_idx"]}
{"id": "C21", "title": "Checked integer arithmetic is exact or fails", "statement": "safe_int_add / safe_int_sub return the mathematical result when it is representable in the type and otherwise throw overflow_error, never wrapping, for every signed/unsigned/bool type and for both implementations (compiler builtins and portable).", "quantifier": "all integer types, all operand pairs", "why_tests_cant": "2^128 operand pairs", "anchors": ["include/obake/detail/safe_integral_arith.hpp: safe_int_add, safe_int_sub"]}
{"id": "C22", "title": "Safe conversion preserves values", "statement": "safe_convert between integral types (bool included), multiprecision integers and rationals succeeds iff the source value is representable in the target and then preserves it; on failure the destination is unchanged; safe_cast returns the same value or throws safe_cast_failure.", "quantifier": "all source/target types and values", "why_tests_cant": "cross product of types and values", "anchors": ["include/obake/math/safe_convert.hpp", "include/obake/math/safe_cast.hpp"]}
{"id": "C23", "title": "Integer formatting is correct and stays inside its buffer", "statement": "to_string of any integral value (up to 128 bits, including the most negative value) is its canonical decimal representation and never writes outside the fixed-size buffer.", "quantifier": "all integral types, all values", "why_tests_cant": "2^128 values", "anchors": ["src/detail/to_string.cpp, include/obake/detail/to_string.hpp"]}
{"id": "C24", "title": "Series invariants are preserved", "statement": "Every public operation on series, polynomials and power series that returns normally (term insertion with valid keys, arithmetic, conversion, filtering, trimming, symbol extension, truncation, multiplication, exponentiation, differentiation, integration, substitution, ...) yields series in which no term has a zero coefficient, no two terms share a key, every key is compatible with the symbol set, every term is stored in the segment selected by its hash and no segment exceeds the maximum table size. (Adding a scalar where the unit key is not representable is the subject of C59, mixed coefficient types that of C30, truncated products with overflowing partial degrees that of C36.)", "quantifier": "all reachable series, all segmentations", "why_tests_cant": "all histories", "anchors": ["include/obake/series.hpp: series, series_add_term, series_add_term_table"]}
{"id": "C25", "title": "Term insertion adds coefficients", "statement": "add_term(k,c) changes the coefficient of k (absent = 0) by exactly +c (or -c when subtracting), leaves every other coefficient unchanged, removes the term iff the result is zero and rejects incompatible keys (invalid_argument) and overfull tables (overflow_error).", "quantifier": "all series, keys, coefficients, segmentations", "why_tests_cant": "all histories", "anchors": ["include/obake/series.hpp: series_add_term, series_add_term_table, add_term"]}
{"id": "C26", "title": "Iteration, find, size and empty are consistent", "statement": "Iterating from begin() to end() visits every stored term exactly once, for any number and distribution of segments (including empty ones); size() is the number of visited terms, empty() iff none, find(k) returns the term with key k iff iteration visits it and end() otherwise. Two dereferenceable iterators compare equal iff they refer to the same term, and never equal end().", "quantifier": "all series, all segmentations", "why_tests_cant": "all segment layouts", "anchors": ["include/obake/series.hpp: series_iterator, begin, end, find, size, empty"]}
{"id": "C27", "title": "Segmentation is unobservable", "statement": "Changing the number of segments of the operands does not change the outcome (set of terms, symbol set, or success) of find, equality, addition, subtraction, multiplication and degree.", "quantifier": "all segmentations of all operands", "why_tests_cant": "2^64 layouts", "anchors": ["include/obake/series.hpp: set_n_segments", "include/obake/polynomials/polynomial.hpp"]}
{"id": "C28", "title": "Addition and subtraction are the ring operations, with symbol merging", "statement": "x+y / x-y of series with arbitrary symbol sets has the merged symbol set and coefficient (x's coefficient +/- y's coefficient) for every monomial, and fails only if a monomial is not representable in the merged symbol set; it is commutative/anticommutative up to equality.", "quantifier": "all pairs of series, symbol sets, coefficient rings", "why_tests_cant": "unbounded", "anchors": ["include/obake/series.hpp: series_default_addsub_impl, series_sym_extender"]}
{"id": "C29", "title": "In-place operators equal the binary ones", "statement": "x += y and x -= y leave in x exactly the terms of x+y / x-y, also when x and y are the same object, and leave y unchanged.", "quantifier": "all series, aliasing included", "why_tests_cant": "unbounded", "anchors": ["include/obake/series.hpp: series_default_in_place_addsub_impl"]}
{"id": "C30", "title": "Mixed-coefficient sums contain no zero terms", "statement": "Adding two series whose coefficient types differ and whose symbol sets differ yields a series without zero coefficients even if the coefficient conversion maps a nonzero value to zero.", "quantifier": "all pairs of series, all coefficient conversions", "why_tests_cant": "needs a conversion that underflows", "anchors": ["include/obake/series.hpp: series_sym_extender"]}
{"id": "C31", "title": "Equality is equality of polynomials", "statement": "x == y iff x and y have the same coefficient for every monomial after identifying symbols by name and ignoring symbols that do not occur with nonzero exponent position (extending to the merged symbol set); it is reflexive, symmetric and transitive, and != is its negation.", "quantifier": "all pairs/triples of series", "why_tests_cant": "unbounded", "anchors": ["include/obake/series.hpp: series_default_equal_to, series_cmp_identical_ss"]}
{"id": "C32", "title": "Negation, identity and scalar multiplication/division", "statement": "negate(x) has exactly the negated coefficients; x*c and x/c multiply/divide every coefficient and drop terms that become zero; multiplication by zero yields a series without terms keeping symbol set and tag.", "quantifier": "all series and scalars", "why_tests_cant": "unbounded", "anchors": ["include/obake/series.hpp: series_default_mul_impl, series_default_div_impl, negate"]}
{"id": "C33", "title": "Exact construction and conversion between series and coefficients", "statement": "Constructing a series from a coefficient gives the constant term (none if zero); converting a series back succeeds iff it is empty or has only a unit-key term, and returns that coefficient; construction from a series with other coefficients converts every coefficient and drops zeros.", "quantifier": "all series/coefficients", "why_tests_cant": "unbounded", "anchors": ["include/obake/series.hpp: generic ctor, conversion operator"]}
{"id": "C34", "title": "Polynomial multiplication is convolution", "statement": "x*y has coefficient sum of x_a*y_b over all pairs a*b = m for every monomial m, or throws overflow_error before producing a result; identical for the simple and the segmented (dense and sparse) multithreaded algorithm and for every number of segments.", "quantifier": "all pairs of polynomials, all segment counts, both monomials kinds", "why_tests_cant": "unbounded operands and internal layouts", "anchors": ["include/obake/polynomials/polynomial.hpp: poly_mul_impl_simple, poly_mul_impl_mt_hm, poly_mul_impl_identical_ss"]}
{"id": "C35", "title": "Multithreaded multiplication is schedule independent and race free", "statement": "Whatever the order and interleaving in which the output segments are processed, the product is the same; two tasks never write the same segment and every term product is computed exactly once.", "quantifier": "all interleavings of the segment tasks, all segmentations", "why_tests_cant": "thread schedules", "anchors": ["include/obake/polynomials/polynomial.hpp: poly_mul_impl_mt_hm"]}
{"id": "C36", "title": "Truncated multiplication equals truncating the full product", "statement": "truncated_mul(x,y,d) (total or partial degree) has exactly the terms of x*y whose (partial) degree does not exceed d, for both algorithms, including the early exits.", "quantifier": "all polynomials, limits, symbol subsets, segmentations", "why_tests_cant": "unbounded", "anchors": ["include/obake/polynomials/polynomial.hpp: truncated_mul, compute_end_idx2, compute_j_end"]}
{"id": "C37", "title": "Truncation and filtering keep exactly the selected terms", "statement": "filter/filtered keep exactly the terms satisfying the predicate (coefficients, symbol set, tag and segmentation unchanged); truncate_degree / truncate_p_degree keep exactly the terms of (partial) degree <= limit and are idempotent.", "quantifier": "all series, predicates, limits", "why_tests_cant": "unbounded", "anchors": ["include/obake/series.hpp: filter, filtered", "include/obake/polynomials/polynomial.hpp: truncate_degree, truncate_p_degree"]}
{"id": "C38", "title": "A negative truncation limit truncates everything of nonnegative degree", "statement": "For polynomials with unsigned exponents and a negative (signed) limit, truncate_degree and truncated_mul leave no terms.", "quantifier": "all polynomials with unsigned monomials, all negative limits", "why_tests_cant": "needs mixed-sign limit types", "anchors": ["include/obake/polynomials/polynomial.hpp: truncate_degree, truncated_mul"]}
{"id": "C39", "title": "Series degree is the maximum term degree", "statement": "degree/p_degree of a series is the maximum of the (partial) degrees of its terms (0 for an empty series), whatever the order and the segments in which the terms are stored.", "quantifier": "all series, splits", "why_tests_cant": "unbounded", "anchors": ["include/obake/series.hpp: series_default_degree_impl, series_default_p_degree_impl"]}
{"id": "C40", "title": "Trimming a series", "statement": "trim(x) has the symbols that occur with nonzero exponent in some term, equals x, and is idempotent; the number of segments of x is kept.", "quantifier": "all series", "why_tests_cant": "unbounded", "anchors": ["include/obake/series.hpp: trim"]}
{"id": "C41", "title": "Adding symbols preserves the value", "statement": "add_symbols(x,ss) has the union symbol set, equals x, keeps tag and segment count, and fails only on unrepresentable monomials.", "quantifier": "all series, symbol sets", "why_tests_cant": "unbounded", "anchors": ["include/obake/series.hpp: add_symbols, series_sym_extender"]}
{"id": "C42", "title": "Evaluation is a ring homomorphism", "statement": "evaluate(x,m) is the sum of coefficient * product of values; evaluate(x+y)=evaluate(x)+evaluate(y), evaluate(x*y)=evaluate(x)*evaluate(y); it throws invalid_argument iff a symbol of x has no value.", "quantifier": "all polynomials, all maps", "why_tests_cant": "unbounded", "anchors": ["include/obake/series.hpp: series_default_evaluate"]}
{"id": "C43", "title": "Substitution agrees with evaluation", "statement": "Substituting a subset of the symbols and then evaluating the rest gives the same value as evaluating everything; the substituted symbols no longer occur.", "quantifier": "all polynomials, maps", "why_tests_cant": "unbounded", "anchors": ["include/obake/polynomials/polynomial.hpp: poly_subs_impl"]}
{"id": "C44", "title": "Differentiation is the formal derivative", "statement": "diff(x,s) has coefficient (e+1)*c at m for each term c*m*s^(e+1); it is linear and satisfies the Leibniz rule; it is zero when s is not a symbol of x.", "quantifier": "all polynomials", "why_tests_cant": "unbounded", "anchors": ["include/obake/polynomials/polynomial.hpp: poly_diff_impl"]}
{"id": "C45", "title": "Integration is an antiderivative", "statement": "integrate(x,s) throws domain_error/overflow_error or returns a polynomial whose derivative with respect to s is x; the symbol s is added at its sorted position when missing.", "quantifier": "all polynomials with rational coefficients", "why_tests_cant": "unbounded", "anchors": ["include/obake/polynomials/polynomial.hpp: poly_integrate_impl"]}
{"id": "C46", "title": "Exponentiation is repeated multiplication for every cache history", "statement": "pow(x,n) equals the n-fold product for every n, whatever earlier pow calls filled the shared cache and in whichever order threads called it; pow(x,0)=1; negative or non-integral exponents are rejected unless the series is a single coefficient/term.", "quantifier": "all polynomials, n, and histories of pow calls by any threads", "why_tests_cant": "cache histories", "anchors": ["include/obake/series.hpp: pow, series_pow_from_cache, series_pow_map", "include/obake/polynomials/polynomial.hpp: pow_poly_impl"]}
{"id": "C47", "title": "Serialization round-trips", "statement": "Loading an archive saved from a series (or monomial, symbol set, truncation tag) gives a series with identical symbol set, tag, segmentation and terms; the stream is consumed exactly.", "quantifier": "all series", "why_tests_cant": "unbounded", "anchors": ["include/obake/series.hpp: save, load", "include/obake/polynomials/packed_monomial.hpp: save, load", "include/obake/power_series/power_series.hpp"]}
{"id": "C48", "title": "Printed text denotes the terms", "statement": "The text printed for a series, read as an arithmetic expression (sums of signed products of numbers and powers of names), denotes exactly the series' terms in iteration order: unit coefficients and unit keys are left out, signs are joined, exponents are shown; at most 50 terms are printed, then an ellipsis; so different series with at most 50 terms print differently. (False with three levels of nested series and for a symbol named 1.)", "quantifier": "all series with integer coefficients over symbols named by identifiers, of any size; for nested series, the exact text", "why_tests_cant": "unbounded series, exponents and symbol sets; a test compares a few literals", "anchors": ["include/obake/series.hpp: series_stream_terms_impl, series_default_cf_stream_insert_impl, cf_tex_stream_insert", "src/series.cpp: series_stream_single_term", "src/polynomials/packed_monomial.cpp: packed_monomial_stream_insert", "include/obake/polynomials/d_packed_monomial.hpp: key_stream_insert"]}
{"id": "C49", "title": "Printing never alters symbol names", "statement": "In printed text and TeX, monomials show the symbol names exactly as given, with their exponents (negative ones in a denominator in TeX), joined by signs. (False for names in which \"+-\" occurs; true for names without \"+\".)", "quantifier": "all symbol names, exponents, coefficients whose text contains no \"+\"", "why_tests_cant": "needs names containing +-", "anchors": ["include/obake/series.hpp: series_stream_terms_impl", "src/polynomials/packed_monomial.cpp: packed_monomial_tex_stream_insert", "include/obake/polynomials/d_packed_monomial.hpp: key_tex_stream_insert"]}
{"id": "C50", "title": "Power series results respect the truncation", "statement": "The sum, difference and product of power series satisfying their truncation satisfy and carry the combined truncation; mismatching truncations are rejected with invalid_argument; untruncated operands adopt the other's truncation; the product equals the truncated exact product.", "quantifier": "all power series, truncation policies and levels", "why_tests_cant": "unbounded", "anchors": ["include/obake/power_series/power_series.hpp: ps_addsub_impl, series_mul"]}
{"id": "C51", "title": "Setting a truncation", "statement": "set_truncation keeps exactly the terms within the limit and records the limit; unset_truncation keeps the terms; truncate is idempotent and never removes terms within the limit.", "quantifier": "all power series", "why_tests_cant": "unbounded", "anchors": ["include/obake/power_series/power_series.hpp: set_truncation_impl, unset_truncation, truncate"]}
{"id": "C52", "title": "Power of a power series is the truncated exact power", "statement": "pow(x,n) for a truncated power series has exactly the terms of the exact n-th power (of the untruncated terms) within the limit.", "quantifier": "all power series incl. negative exponents", "why_tests_cant": "needs multi-term series with negative exponents", "anchors": ["include/obake/power_series/power_series.hpp: pow"]}
{"id": "C53", "title": "Calculus on power series keeps the truncation", "statement": "diff and integrate of a truncated power series carry the same truncation and contain only terms within the limit.", "quantifier": "all power series", "why_tests_cant": "unbounded", "anchors": ["include/obake/power_series/power_series.hpp: diff, integrate"]}
{"id": "C54", "title": "Spin lock gives mutual exclusion", "statement": "At most one thread is between construction and destruction of an atomic_lock_guard on the same flag; a released lock can be acquired.", "quantifier": "all interleavings, any number of threads", "why_tests_cant": "schedules", "anchors": ["include/obake/detail/atomic_lock_guard.hpp"]}
{"id": "C55", "title": "One storage per type in the flyweight registry", "statement": "fw_fetch_storage returns, for every type, always the same non-null storage address, reports new exactly once per type, under any interleaving; the storage is an array of the size asked for, distinct types get distinct storage, a failed allocation leaves no trace, and a call in progress can always go on to return.", "quantifier": "all interleavings and call histories", "why_tests_cant": "schedules", "anchors": ["src/detail/fw_utils.cpp"]}
{"id": "C56", "title": "Compatibility of dynamic packed monomials is exact", "statement": "key_is_compatible on a dynamic packed monomial and a symbol set holds iff the monomial stores the packs of some exponent vector of the symbol set's size.", "quantifier": "all pack sizes, types, symbol sets and container contents", "why_tests_cant": "The set of container contents is unbounded; the last partially filled pack is only wrong for particular values", "anchors": ["/repo/include/obake/polynomials/d_packed_monomial.hpp: key_is_compatible"]}
{"id": "C57", "title": "Degrees of products accepted by the overflow check never overflow", "statement": "After monomial_range_overflow_check accepted two ranges of dynamic packed monomials, key_degree of every pairwise product returns without throwing.", "quantifier": "all pairs of ranges of compatible monomials of any length", "why_tests_cant": "Needs particular sign patterns in long exponent vectors", "anchors": ["/repo/include/obake/polynomials/d_packed_monomial.hpp: monomial_range_overflow_check, key_degree"]}
{"id": "C58", "title": "Binary sums keep the common tag", "statement": "When two series carry equal tags, the result of their sum or difference carries that tag.", "quantifier": "all pairs of series over all symbol sets and tag types", "why_tests_cant": "Depends on which of the code paths (same or different symbol sets, move or copy) is taken for the particular operands", "anchors": ["/repo/include/obake/series.hpp: series_default_addsub_impl, series_add_symbols"]}
{"id": "C59", "title": "Series never store incompatible keys after scalar operations", "statement": "Constructing a series from a scalar and a symbol set, or adding a scalar to a series, either throws or gives a series in which every key is compatible with the series' symbol set.", "quantifier": "all series, scalars and symbol sets of any size", "why_tests_cant": "Only violated for symbol sets larger than the key type can hold", "anchors": ["/repo/include/obake/series.hpp: series constructors from lower rank, series_default_addsub_impl (mixed rank)"]}
{"id": "C60", "title": "Generators are the symbols they are named after", "statement": "make_polynomials and make_p_series return one series for each name, in the order of the names, whose only term is that symbol with exponent and coefficient one, over the given symbol set (or the symbol alone), with the requested truncation applied; a name that is not in the given symbol set is rejected with invalid_argument, a limit that is not a value of the degree type with safe_cast_failure, and an unrepresentable monomial with an overflow error.", "quantifier": "all lists of names, symbol sets, limits, truncation symbols and key types", "why_tests_cant": "the positions of the symbol in the set, the size of the set, the limits and the packing of the key type range over unbounded domains", "anchors": ["include/obake/polynomials/polynomial.hpp: make_polynomials_impl, make_polynomials", "include/obake/power_series/power_series.hpp: make_p_series, make_p_series_t, make_p_series_p"]}
{"id": "C61", "title": "The flyweight holder returns a constructed object", "statement": "Every reference returned by get() of the flyweight holder is to an object which has been constructed, and the object is constructed at most once in the process, whichever threads and modules (shared libraries) call get() first.", "quantifier": "all interleavings of any number of threads in any number of modules", "why_tests_cant": "depends on the schedule and on the placement of code in shared libraries", "anchors": ["include/obake/detail/fw_utils.hpp: fw_holder_class::impl, fw_holder_class::get", "src/detail/fw_utils.cpp: fw_fetch_storage"]}
{"id": "C62", "title": "Exceptions leave valid series and untouched operands", "statement": "If a coefficient, key or allocation operation throws during add_term, sums, differences (binary and in-place, with a series or a scalar), filter, truncation, or multiplication by a scalar, then every series involved still satisfies the class invariants (or is moved-from, if it was passed as an rvalue), operands passed by lvalue which are not assigned to are unchanged, and a term is never half-inserted; if nothing throws, the result does not depend on whether the operands are lvalues, rvalues or the same object.", "quantifier": "all series, all operand value categories and aliasings, all points at which an exception is thrown, all states a throwing coefficient operation leaves behind", "why_tests_cant": "every execution of every coefficient or key operation and allocation is a possible exception point", "anchors": ["include/obake/series.hpp: series_add_term_table (catch), series_rref_clearer, series_sym_extender, series_default_addsub_impl, series_default_in_place_addsub_impl, series_default_mul_impl (catch), filter_impl, series_default_negate_impl"]}
{"id": "C63", "title": "Exceptions do not detach a power series from its truncation", "statement": "After an exception in set_truncation, truncate or an in-place sum or difference, a power series still has its truncation (or has been cleared) and no term exceeds it.", "quantifier": "all power series, limits, operands and exception points", "why_tests_cant": "every execution of every coefficient or key operation and allocation is a possible exception point", "anchors": ["include/obake/power_series/power_series.hpp: set_truncation_impl (catch), ps_in_place_addsub_impl, truncate"]}
{"id": "C64", "title": "The product size estimate never fails and counts the multiplications exactly", "statement": "For two non-empty polynomials whose product is representable, the estimate made before a large (possibly truncated) multiplication has a defined outcome whatever the schedule and the random numbers: it returns the exact number of term by term multiplications that will be carried out, and an estimated number of terms which is at least 1 and at most 3/2 of the number of pairs of terms, and exactly the number of terms when nothing is truncated and no two products have the same monomial. A degree that cannot be computed is reported as an overflow.", "quantifier": "all pairs of polynomials, truncations, numbers drawn and splittings of the parallel reductions", "why_tests_cant": "the number of random draws and of splittings is unbounded, and the bounds hold for all sizes", "anchors": ["include/obake/polynomials/polynomial.hpp: poly_mul_estimate_product_size"]}
{"id": "C65", "title": "The segmentation of a product does not depend on the schedule", "statement": "Multiplying the same two polynomials twice, with the same random numbers, gives products with the same number of segments whatever the schedule of the threads.", "quantifier": "all pairs of polynomials and all splittings of the parallel reduction of the size estimate", "why_tests_cant": "the splitting of the range depends on the scheduler", "anchors": ["include/obake/polynomials/polynomial.hpp: poly_mul_estimate_product_size, poly_mul_impl_mt_hm"]}
{"id": "C66", "title": "Guarded accesses are ordered under the memory orders of the spin lock", "statement": "With the acquire and release orders the guard uses, and for every execution the C++ memory model allows (including reads of stale flag values), variables accessed only within guards of the same atomic flag have no data races, every access happens after all the earlier ones, reads return the value last written, and two guards of a flag never coexist.", "quantifier": "all numbers of threads, flags, variables and guarded accesses, all executions of the release/acquire model", "why_tests_cant": "weak memory behaviours are rare, hardware dependent and unbounded in number", "anchors": ["include/obake/detail/atomic_lock_guard.hpp: atomic_lock_guard"]}
{"id": "C67", "title": "Products of polynomials with coefficients of different types are exact", "statement": "The product, plain or truncated, of polynomials with the same key type and different coefficient types (integers and rationals, for example) is the convolution of the two, over the union of their symbols, with the products of coefficients in the common type; it is the same polynomial that is obtained by converting the operands first; whichever operand is shorter and whichever algorithm is used; or an exception reports that a monomial is not representable or a segment is full.", "quantifier": "all pairs of polynomials, coefficient types with conversions that respect sums and zero, truncations, choices of algorithm and number of segments", "why_tests_cant": "there are infinitely many operands and the argument switching, the extension of operands in their own types and the segment algorithm have to be right for all", "anchors": ["include/obake/polynomials/polynomial.hpp: series_mul, truncated_mul, poly_mul_impl_switch, poly_mul_impl, poly_mul_impl_simple, poly_mul_impl_mt_hm"]}
{"id": "C68", "title": "The generator of the multiplication's random choices is sound", "statement": "Every call of the random generator returns a 64-bit value and moves to a new state by a bijection of the 128-bit states, so it never collapses into the all-zero state from which only zeros come; random<T>() is in the range of T, takes every value of a type of at most 64 bits, with the same number of states for each, and for 128-bit types is two consecutive outputs; the seeds used by the multiplication are never the all-zero state and the trials of the size estimation never share a state.", "quantifier": "all 128-bit states, integral types, numbers of draws, trial numbers and operand sizes", "why_tests_cant": "there are 2^128 states and no test distinguishes a generator that collapses or repeats after many draws", "anchors": ["include/obake/detail/xoroshiro128_plus.hpp: xoroshiro128_plus", "include/obake/polynomials/polynomial.hpp: poly_mul_estimate_product_size, poly_mul_impl_estimate_average_term_size"]}
{"id": "C69", "title": "byte_size() and the number of segments of a product are what they claim", "statement": "byte_size() of a series is the size of the object, of its tables and of its terms with padding, plus what its tag owns, whatever the splitting of the parallel reduction and the order of terms in the tables, and exact whenever it fits std::size_t; the estimated average size of a term of a product is positive and between the smallest and the largest size of a product of two terms, whatever pairs are drawn; the number of segments is the least power of two for which the estimated terms fill less than the segments, limited by the maximum.", "quantifier": "all series, sizes of keys, coefficients and tags, splittings of the reduction, draws and estimates", "why_tests_cant": "the splitting is chosen by the scheduler at run time, draws are random and the sizes unbounded", "anchors": ["include/obake/series.hpp: series::byte_size, customisation::internal::series_default_byte_size_impl", "include/obake/polynomials/polynomial.hpp: poly_mul_impl_estimate_average_term_size, poly_mul_impl_mt_hm"]}
{"id": "C70", "title": "The text of a power series shows its truncation", "statement": "Two power series whose printed texts are equal have the same truncation (degree and symbols), symbol set and number of terms, and, for integer coefficients and at most 50 terms, the same terms; two power series with the same terms and the same TeX have the same truncation. Symbol names are identifiers (with quotes and commas in names it is false).", "quantifier": "all power series, truncation degrees (also negative) and symbol sets of identifiers", "why_tests_cant": "injectivity ranges over all pairs of power series", "anchors": ["include/obake/power_series/power_series.hpp: operator<<(tag), tex_stream_insert", "include/obake/series.hpp: operator<<(series)", "src/symbols.cpp: to_string(symbol_set)"]}
{"id": "C71", "title": "Sums over any coefficient type", "statement": "Without any algebraic law of the coefficient operations (floating point coefficients, nested series): after x + y, x - y, x += y, x -= y and add_term(), the coefficient stored for a monomial is the result of exactly one coefficient operation on the coefficients stored before (the coefficient alone, its negative, or one addition or subtraction; the binary operators start from the longer operand and negate a difference taken the other way around), and is absent exactly when the result is zero; all other coefficients are unchanged, and the class invariants hold.", "quantifier": "all well-formed series over any coefficient type whose zero tests true and whose zero test ignores the sign, all segment counts, hash table orders, aliased operands", "why_tests_cant": "which rounding a coefficient undergoes ranges over all series and coefficient types", "anchors": ["include/obake/series.hpp: series_default_addsub_impl, series_default_in_place_addsub_impl, series_add_term"]}
{"id": "C72", "title": "Products over any coefficient type", "statement": "Without any algebraic law of the coefficient operations: every coefficient of a (truncated) product is obtained by multiplying one pair of coefficients and accumulating the others by multiply-add, using each pair of terms which meets in that monomial exactly once and no other, in some order; it is absent when the result is zero or no pair meets; a monomial where one pair meets is a single multiplication; if the accumulation does not depend on the order, neither does the product on the algorithm. The left factors are the coefficients of the operand with fewer terms (so x * y is computed as y * x for longer x, which is wrong for coefficients that do not commute).", "quantifier": "all well-formed polynomials over any coefficient type, both algorithms, all segment counts, sortings and hash table orders, total and partial truncation", "why_tests_cant": "that no pair of terms is lost, doubled or swapped ranges over all polynomials and schedules", "anchors": ["include/obake/polynomials/polynomial.hpp: poly_mul_impl_switch, poly_mul_impl, poly_mul_impl_identical_ss, poly_mul_impl_simple, poly_mul_impl_mt_hm", "include/obake/math/fma3.hpp: fma3"]}
{"id": "C73", "title": "Polynomials with polynomial coefficients", "statement": "For polynomials whose coefficients are themselves polynomials (rank 2), read as polynomials in all the symbols together: x + y, x - y, x += y, x -= y (also x += x) have exactly the sum or difference of the coefficients of every monomial, and x * y exactly the convolution over all pairs of terms of the flattened operands, whatever the algorithm, segment counts and hash table orders; all class invariants hold for the result and for every coefficient in it. Otherwise an overflow exception is thrown, because of the outer exponents or sizes or by an operation on the coefficients.", "quantifier": "all rank 2 polynomials with well-formed coefficients over any symbol sets inside a common set, over any coefficient ring and key type", "why_tests_cant": "that nested merging of symbol sets and nested multiplication lose no term ranges over all pairs of nested polynomials", "anchors": ["include/obake/series.hpp: series_default_addsub_impl, series_default_in_place_addsub_impl, series_add_term", "include/obake/polynomials/polynomial.hpp: poly_mul_impl_switch, poly_mul_impl, poly_mul_impl_simple, poly_mul_impl_mt_hm"]}
{"id": "C74", "title": "Degrees and truncation of polynomials with polynomial coefficients", "statement": "For polynomials whose coefficients are polynomials, degree() and p_degree() are the largest (partial) degree of a monomial in the outer and inner symbols together, or overflow_error is thrown because some degree does not fit its type; truncate_degree() and truncate_p_degree() remove exactly the monomials whose degree exceeds the limit.", "quantifier": "all rank 2 polynomials, all exponent types of the two levels, all limits and symbol subsets", "why_tests_cant": "the claim ranges over all nested polynomials and all combinations of degree types", "anchors": ["include/obake/series.hpp: series_default_degree_impl, series_default_p_degree_impl", "include/obake/polynomials/polynomial.hpp: truncate_degree, truncate_p_degree"]}
{"id": "C75", "title": "Differentiation and integration of polynomials with polynomial coefficients", "statement": "For polynomials whose coefficients are polynomials, diff(p, s) is the derivative with respect to s of p as a polynomial in the outer and inner symbols together, also when s occurs at both levels (the product rule). integrate(p, s) throws std::invalid_argument if some coefficient has a nonzero derivative with respect to s and std::domain_error if s has the exponent -1 in some key; otherwise s is a symbol of the result, every coefficient of the result times its exponent of s is the coefficient of p with that exponent lowered by one, and nothing is added at exponent 0. Otherwise overflow_error or an exception of a coefficient operation is thrown, because some exponent or some table does not fit.", "quantifier": "all rank 2 polynomials, all symbols, both key types, all coefficient rings with exact division by integers", "why_tests_cant": "the claim ranges over all nested polynomials and symbols, including those occurring at both levels", "anchors": ["include/obake/polynomials/polynomial.hpp: poly_diff_impl, poly_integrate_impl"]}
{"id": "C76", "title": "Evaluation of polynomials with polynomial coefficients", "statement": "evaluate(p, m) throws std::invalid_argument if some symbol of p is not in the map m, or some symbol of a coefficient is not in m and the powers exist; otherwise it is the sum over all outer and inner terms of coefficient times the product of the powers of both keys. It is additive and multiplicative: evaluating p + q, p - q and p * q gives the sum, difference and product of the values.", "quantifier": "all rank 2 polynomials, all symbol maps, all value types forming a commutative ring in which powers are total on the exponents that occur", "why_tests_cant": "the claim ranges over all nested polynomials, maps and value types", "anchors": ["include/obake/series.hpp: series_default_evaluate_impl"]}
{"id": "C77", "title": "Trimming of polynomials with polynomial coefficients", "statement": "trim(p) never throws on a polynomial whose coefficients are polynomials: the result has the same tag, the same number of terms and the same coefficients as a polynomial in the outer and inner symbols together; its symbols are exactly those of p that occur with a nonzero exponent in some key; and every symbol of every coefficient of the result occurs with a nonzero exponent in that coefficient.", "quantifier": "all rank 2 polynomials, both key types", "why_tests_cant": "the claim ranges over all nested polynomials", "anchors": ["include/obake/series.hpp: series_default_trim_impl"]}
{"id": "C78", "title": "Types of sums, products, quotients, comparisons and conversions", "statement": "For series types of any nesting depth: x + y and x - y exist exactly if the innermost levels (key type and tag) of the two types agree and the innermost coefficients can be added; the result has the levels of the operand of higher rank over the type of the innermost sum. Hence x + y and y + x have the same type and exist together, and so do (x + y) + z and x + (y + z), if this holds of the non-series types. Products have the same rule, with the common levels being polynomials. A series can be divided only by non-series types. Comparability is symmetric and follows the same rule. A type is constructible from another if the key types of the innermost levels agree, whatever the tags, and the innermost coefficient converts. x += y, if available, keeps the type of x, but it does not imply that x + y is available.", "quantifier": "all series types (all depths, key types, tags, coefficient types), all tables of operations on the non-series types in which operands convert to the result type", "why_tests_cant": "there are infinitely many nested types; the recursion of the selection over ranks decides all of them", "anchors": ["include/obake/series.hpp: series_default_addsub_algorithm_impl, series_default_in_place_addsub_algorithm_impl, series_default_mul_algorithm_impl, series_default_div_algorithm_impl, series_equal_to_algorithm_impl, series_generic_ctor_algorithm_impl, is_series_convertible", "include/obake/polynomials/polynomial.hpp: poly_mul_algorithm_impl"]}
{"id": "C79", "title": "Scalar operations over any coefficient type", "statement": "For every coefficient type whose zero test accepts the default value and is invariant under negation (no ring laws): x * b and b * x have the symbols and the tag of x and hold, for every term of x, the product of the coefficient and b in this order, without the products which are zero; adding or subtracting a coefficient on either side changes the unit term only (q - x negates the others), drops it if it vanishes, and keeps segments, symbols and tag, or throws overflow_error when a segment is full; x / y divides every coefficient and drops the quotients which are zero, or rethrows what one of the divisions throws. That b * x multiplies from the left is false.", "quantifier": "all series, coefficients and divisors, all key types with lawful operations, all coefficient types, all numbers of segments", "why_tests_cant": "Coefficient types with non-commutative or non-associative operations are user supplied; the order of the factors and the dropped terms have to be right for every type and value.", "anchors": ["include/obake/series.hpp: series_default_mul_impl, series_default_div_impl, series_default_addsub_impl (algorithms 1 and 2), series_default_in_place_addsub_impl"]}
{"id": "C80", "title": "Polynomial coefficients and numbers as operands of nested polynomials", "statement": "For a polynomial x with polynomial coefficients and a polynomial q of the coefficient type: x * q and q * x either throw an overflow raised by the product of two coefficients or return the exact product in all the symbols together, with the symbols and the tag of x; x + q, x - q, q + x, q - x, x += q and x -= q are exact in all the symbols together, the result having the symbols, tag and segments of x, or throw an overflow raised by an operation on coefficients or because a segment is full; x / n for a nonzero number n, with exact division of numbers, is exact and never throws; division by zero throws for every nonzero x.", "quantifier": "all well-formed x and q over any symbol sets, all exponents, coefficients and numbers of segments; all multiplication environments", "why_tests_cant": "The statement is about every monomial in the outer and inner symbols of every pair of polynomials, including cancellation inside and of coefficients, and about every overflow.", "anchors": ["include/obake/series.hpp: series_default_mul_impl, series_default_div_impl, series_default_addsub_impl (algorithms 1 and 2)", "include/obake/polynomials/polynomial.hpp: poly_mul_impl"]}
{"id": "C81", "title": "Sums, differences and comparison of series with different coefficient types", "statement": "For series x and y with different coefficient types whose conversions to a common type C preserve sums and lose no nonzero coefficient: x + y and x - y are series over the union of the symbols whose every coefficient is the sum or difference of the converted coefficients; x += y and x -= y have the type of x and keep its number of segments, and for them the conversion of y need only preserve sums; x == y holds exactly if the tags are equal and the converted coefficients are equal in every monomial, and x != y is its negation. Or an overflow is thrown, and then a monomial is not representable over the union of the symbols or a segment can be full.", "quantifier": "all well-formed x and y over any symbol sets and numbers of segments, all additive conversions of coefficients, all key types with lawful operations", "why_tests_cant": "the symbol sets, terms and segmentations are unbounded, and so are the pairs of coefficient types", "anchors": ["include/obake/series.hpp:2346-2529", "include/obake/series.hpp:2700-2920", "include/obake/series.hpp:3443-3557"]}
{"id": "C82", "title": "Power series with different coefficient types", "statement": "For power series x and y with different coefficient types and conversions to a common type C: x + y, x - y, x += y, x -= y and x * y throw std::invalid_argument if both are truncated and their truncations differ; otherwise the result has the truncation of the truncated operand, is over the union of the symbols and holds, for every monomial within the truncation, the sum, difference or convolution of the converted coefficients, and no monomial beyond it; or an overflow is thrown, because a monomial or a degree is not representable or a segment is full.", "quantifier": "all well-formed power series over any symbol sets, truncations, numbers of segments, all multiplication environments, all additive conversions without loss of nonzero coefficients", "why_tests_cant": "the terms, the truncation limits and the pairs of coefficient types are unbounded", "anchors": ["include/obake/power_series/power_series.hpp:951-1221", "include/obake/power_series/power_series.hpp:1284-1367", "include/obake/polynomials/polynomial.hpp:797-2032"]}
{"id": "C83", "title": "Integration with integer coefficients", "statement": "integrate(x, s) of a polynomial x returns an antiderivative of x: diff(integrate(x, s), s) == x, also when the coefficients are integers.", "quantifier": "all well-formed polynomials with integer coefficients over any symbol set, all symbols, all numbers of segments", "why_tests_cant": "the polynomials are unbounded and the loss depends on the divisibility of every coefficient", "anchors": ["include/obake/polynomials/polynomial.hpp:2650-2856"]}
{"id": "C84", "title": "Comparison with coefficients of any type, with polynomial coefficients and with numbers", "statement": "x == y is true iff the tags are equal and the coefficients of every monomial compare equal, also when the coefficients are polynomials, in other symbols and in different orders; x == q for an object q of lower rank (a number, or a polynomial of the coefficient type) is true iff x is the constant q. x != y is the negation. Otherwise the exception of a comparison of two coefficients, or that of the keys, leaves the operator.", "quantifier": "all well-formed series, all coefficient types and comparisons of coefficients (which may throw), all symbol sets and numbers of segments", "why_tests_cant": "the series and the nesting of symbols are unbounded, and a wrong comparison shows only on particular pairs", "anchors": ["include/obake/series.hpp:1554-1589", "include/obake/series.hpp:3443-3557"]}
{"id": "C85", "title": "Concurrent calls of pow() exclude one another and return", "statement": "Any number of threads may call pow() at the same time: the cache of powers is never read or changed by two calls at once, and every call returns, in every schedule. (Refuted when pow() is called inside a task of a parallel algorithm, for instance in the body of tbb::parallel_for: the mutex of the cache is held while the multiplications run parallel algorithms, a thread waiting there may take another task of the outer loop, and this locks the mutex again in the same thread.)", "quantifier": "all numbers of threads, all programs made of calls of pow(), functions and nested parallel algorithms, all schedules of threads and tasks and all policies of the task scheduler", "why_tests_cant": "the deadlock needs a particular schedule of tasks; its absence elsewhere is a claim on all schedules", "anchors": ["include/obake/series.hpp:1627-1716 (series_pow_from_cache)", "src/series.cpp:72-81 (clear_series_pow_map)", "include/obake/polynomials/polynomial.hpp:506-1563"]}
{"id": "C86", "title": "Exceptions inside pow() do not spoil later powers", "statement": "If pow() is interrupted by an exception at any point (hashing, copying or comparing the base, inserting into the cache, constructing 1, a multiplication, storing or copying a result), the cache is left so that every later call of pow(), with any base and exponent, gives the exact power or throws for the reasons it would throw after no history; an interrupted call never returns a wrong value.", "quantifier": "all histories of calls of pow() and clear_series_pow_map(), each interrupted at any point or not, all bases, exponents and environments of the multiplications", "why_tests_cant": "the point of failure and the history are arbitrary, and a half filled cache would only show in later calls", "anchors": ["include/obake/series.hpp:1627-1716 (series_pow_from_cache)", "include/obake/series.hpp:1764-1831 (series_default_pow_impl)", "include/obake/polynomials/polynomial.hpp:2135-2183", "src/series.cpp:72-81"]}
{"id": "C87", "title": "Rational coefficients and TeX output read back", "statement": "The printed terms of a polynomial or series with rational coefficients, and the TeX output of one with rational or integer coefficients, denote exactly its terms: reading the text as a sum of products of fractions and powers (in TeX, with powers and numbers above and below fraction bars) gives back each coefficient and each exponent of the first fifty terms, after which only an ellipsis is printed. So two series over the same symbols with at most fifty terms and the same text have the same terms.", "quantifier": "all series, all storage layouts and orders of iteration, all rational or integer coefficients, all exponents, all symbol names made of letters, digits and underscores, perhaps after a backslash", "why_tests_cant": "all combinations of signs, unit coefficients, unit exponents, positive and negative exponents and empty products decide which signs, braces and bars are written", "anchors": ["include/obake/tex_stream_insert.hpp:58-78", "include/obake/series.hpp:1987-2060 (series_stream_terms_impl)", "src/series.cpp:22-56 (series_stream_single_term)", "src/polynomials/packed_monomial.cpp:117-194", "include/obake/polynomials/d_packed_monomial.hpp:385-461"]}
{"id": "C88", "title": "Conversions between polynomials of different rank", "statement": "A polynomial with polynomial coefficients constructed from a polynomial of the coefficient type, or from a number, is the constant with this value: its coefficient is that polynomial, or number, at the exponents zero, and zero elsewhere, over the symbol set asked for. Conversely, one whose every nonzero exponent in the outer symbols is zero converts to the polynomial that is its coefficient (to the empty one if it is zero), and to a number if that coefficient is moreover a constant; every other conversion throws an invalid-argument error and yields nothing. So a polynomial, or number, comes back unchanged from a round trip through the higher rank, except that a zero comes back without symbols.", "quantifier": "all polynomials of both ranks, all storage layouts, symbol sets and monomials, all numbers", "why_tests_cant": "a value is accepted exactly if no nonzero coefficient lies at nonzero exponents; this ranges over all polynomials with any number of terms, and over zero coefficients that leave no term", "anchors": ["include/obake/series.hpp:688-699", "include/obake/series.hpp:769-813 (series_generic_ctor_impl)", "include/obake/series.hpp:839-864 (conversion operator)"]}
{"id": "C89", "title": "Derivatives and integrals with another coefficient type", "statement": "When multiplying a coefficient by an exponent, or dividing it by one, gives another type (int coefficients and long long exponents, say), diff() and integrate() of a polynomial give a polynomial of that coefficient type: the coefficient of m in the derivative in s is e+1 times the converted coefficient of m*s, where e is the exponent of s in m, and nothing if s is not a symbol; the coefficient of m*s in the integral is the quotient of that of m by e+1, the symbol s being added if it is missing, and no term of the integral is free of s. If the division is exact, differentiating the integral gives the polynomial back with its coefficients converted. Otherwise an exception says that an exponent is -1 (domain error), or that an exponent, or the number of terms in one segment, is not representable.", "quantifier": "all polynomials, all symbols, all exponents including negative ones, all coefficient types with an injective additive conversion, all storage layouts", "why_tests_cant": "the results are built by one sum of polynomials per term, so exactness is a claim over all polynomials with any number of terms, and over every exponent", "anchors": ["include/obake/polynomials/polynomial.hpp:2533-2597", "include/obake/polynomials/polynomial.hpp:2736-2790", "include/obake/polynomials/polynomial.hpp:2823-2856"]}
{"id": "C90", "title": "Derivatives and integrals of power series with another coefficient type", "statement": "Under the same circumstances diff() and integrate() of a truncated power series have its truncation, contain no term beyond it, and have the exact coefficients of the derivative and of the integral up to the truncation. (Refuted: without terms, the truncation and the symbols are lost; the integral keeps terms beyond the truncation.)", "quantifier": "all power series, all truncations, symbols, exponents, coefficient types", "why_tests_cant": "whether a term beyond the truncation survives depends on the order of the terms in the hash table; the positive part ranges over all power series", "anchors": ["include/obake/power_series/power_series.hpp:1403-1440", "include/obake/power_series/power_series.hpp:987-1222", "include/obake/polynomials/polynomial.hpp:2533-2597", "include/obake/polynomials/polynomial.hpp:2736-2790"]}
{"id": "C91", "title": "Powers of polynomials with polynomial coefficients", "statement": "pow(x, n) of a polynomial whose coefficients are polynomials is the n-th power of x in all the symbols together, whatever powers were computed before (of this type or of the coefficient type, and whatever exceptions they threw), or an exception is thrown: because the exponents of the power of a single term are not representable, because the product of some lower power by x fails, or because the comparison of x with a polynomial in the cache fails. For single terms the exponent may be any integer. A zero exponent gives 1. Non-integral or negative exponents of anything else are rejected. Two histories give results that agree in value. (Refuted: that the symbols of the coefficients of the result do not depend on the history.)", "quantifier": "all polynomials with polynomial coefficients, all exponents, all histories of calls of pow on both types, all storage layouts and multiplication algorithms", "why_tests_cant": "the result is read from a cache filled by earlier calls; correctness must hold after every history, including interrupted ones", "anchors": ["include/obake/series.hpp:1594-1598", "include/obake/series.hpp:1627-1716", "include/obake/series.hpp:1764-1831", "include/obake/polynomials/polynomial.hpp:2135-2183"]}
{"id": "C92", "title": "Substitution of numbers in power series", "statement": "Substituting numbers for symbols of a truncated power series gives a power series with the same symbols and the same truncation, whose coefficients up to the truncation are those of the substituted polynomial, and which contains no term beyond the truncation. (Refuted: without terms, the truncation and the symbols are lost; with negative exponents, terms beyond the truncation remain.) The only exception, besides those of the powers, is that of a degree that does not fit its type.", "quantifier": "all power series with any truncation, all symbol maps, all value and coefficient types, all storage layouts", "why_tests_cant": "which of the terms beyond the truncation are removed depends on the order of the terms in the hash table; the positive part ranges over all power series", "anchors": ["include/obake/power_series/power_series.hpp:1396-1401", "include/obake/polynomials/polynomial.hpp:2249-2306"]}
{"id": "C93", "title": "Substitution of power series in power series", "statement": "Substituting truncated power series for symbols of a power series (all truncations equal or absent, no negative exponents in the series and no terms of negative degree in the values) gives, up to the truncation, the coefficients of the exact substitution: in every term the symbols are replaced by the corresponding powers of the values and the results are added. The result respects its truncation, which is the truncation of the series if it has one and has terms. The only exceptions are those of sums, products and powers of power series; pow() provides the needed powers whatever the history of its cache.", "quantifier": "all power series with any truncation, all symbol maps with power series as values, all coefficient types and key types, all storage layouts, all states of the cache of powers", "why_tests_cant": "each product and each power on the way is truncated separately, in an order that depends on the hash table; that nothing below the truncation is lost is a statement about all inputs", "anchors": ["include/obake/power_series/power_series.hpp:1396-1401", "include/obake/polynomials/polynomial.hpp:2249-2306"]}
{"id": "C94", "title": "Types of degrees, truncations, powers, evaluations, substitutions, derivatives and integrals", "statement": "The type of degree() is the common type of the degrees of the monomials of all levels; truncation and truncated products exist exactly for polynomials whose first level alone has a degree, so never for polynomials over polynomials. pow() keeps the levels and gives the innermost coefficients the type of their power, and non-constant bases are accepted (instead of an exception) exactly for polynomials whose coefficients are closed under products and powers. Evaluation has the levels of the values, substitution those of the operand of higher rank, derivatives and integrals those of the series, in all cases over the common type of the innermost coefficients and the powers of the values, respectively the exponents. Evaluation and substitution replace the symbols, or do not compile: refuted; when the values cannot be raised to the exponents they compile and return their argument.", "quantifier": "all types of series of any depth, all tables of operations on the non-series types", "why_tests_cant": "the selection recurses over the levels of the coefficient types; tests instantiate a few combinations", "anchors": ["include/obake/series.hpp:3589-3650,1720-1761,3952-3991", "include/obake/polynomials/polynomial.hpp:2042-2098,2192-2236,2325-2355,2452-2521,2662-2724", "include/obake/polynomials/packed_monomial.hpp:565-604", "include/obake/math/evaluate.hpp:61-63", "include/obake/math/subs.hpp:47-49"]}
{"id": "C95", "title": "Printed text of polynomials with polynomial coefficients reads back", "statement": "The text printed for a polynomial whose coefficients are polynomials with integer coefficients, read as an arithmetic expression with the usual precedence and parentheses, denotes the sum over all terms of coefficient times monomial, multiplied out: no parenthesis is missing where a coefficient is a sum, no sign is lost, and coefficients of constant terms are merged without changing the value.", "quantifier": "all well-formed two-level polynomials with identifiers as symbols, nonzero coefficients and no more than fifty terms per level, with packed or dynamic packed monomials", "why_tests_cant": "the text depends on every combination of signs, units, numbers of terms and trivial monomials at both levels; tests compare a few strings", "anchors": ["include/obake/series.hpp:1987-2118", "src/series.cpp:22-56", "include/obake/polynomials/packed_monomial.hpp", "include/obake/polynomials/d_packed_monomial.hpp"]}
{"id": "C96", "title": "Substitution of numbers in polynomials with polynomial coefficients", "statement": "subs(p, m) with numbers as values, for a polynomial p with polynomial coefficients, replaces the symbols of m in the monomials of p and in those of its coefficients: read in all the symbols together, the result has exactly the coefficients obtained by substituting in every term; the replaced symbols occur at neither level, and evaluating the result is evaluating p at the point overridden by m. Otherwise an overflow raised by a product or sum of two coefficients is thrown, at a term before which the result was exact.", "quantifier": "all rank 2 polynomials with well-formed coefficients over any symbol sets inside a common set, all maps for which the powers exist, all multiplication environments", "why_tests_cant": "the recursion mixes symbols of both levels, cancellations and exceptions of coefficient operations; tests substitute a few values", "anchors": ["include/obake/polynomials/polynomial.hpp:2249-2316", "include/obake/math/subs.hpp"]}
{"id": "C97", "title": "Ring laws of power series", "statement": "For power series with a common truncation (operands without truncation allowed), as judged by operator==: x*y == y*x, (x*y)*z == x*(y*z), (x+y)+z == x+(y+z), x*(y+z) == x*y + x*z, diff(x*y, s) == diff(x, s)*y + x*diff(y, s), and truncating two factors and multiplying them is multiplying them and truncating the product; for all algorithms, segmentations and schedules of the products. (Products are associative, distributive over operands with different truncations, and compatible with truncation only if no term has a negative degree in the counted symbols; the Leibniz rule holds only for coefficients whose monomial times s is within the truncation.)", "quantifier": "all well-formed power series, truncations, key types and multiplication environments", "why_tests_cant": "a law about all triples of series and all orders in which high-order terms are dropped; tests check a few products", "anchors": ["include/obake/power_series/power_series.hpp:1017-1067", "include/obake/power_series/power_series.hpp:1284-1367", "include/obake/power_series/power_series.hpp:1411-1440"]}
{"id": "C98", "title": "Products over coefficients without zero divisors", "statement": "For polynomials whose coefficient ring has no zero divisors: x*y is zero only if x or y is zero; for nonzero x and y, degree(x*y) = degree(x) + degree(y) and p_degree(x*y, s) = p_degree(x, s) + p_degree(y, s) for every set of symbols (also with negative exponents); the degree of pow(x, n) is n degree(x); and x*y = x*z implies y = z for nonzero x; for all algorithms, segmentations and histories of the cache of powers.", "quantifier": "all well-formed polynomials, coefficient rings without zero divisors, key types, symbol sets, exponents n, multiplication environments and reachable caches", "why_tests_cant": "a statement about all pairs (and triples) of polynomials: no finite set of products excludes a cancelling leading term", "anchors": ["include/obake/polynomials/polynomial.hpp:1956-2049", "include/obake/series.hpp:3652-3910", "include/obake/series.hpp:1625-1831"]}
{"id": "C99", "title": "Laws of powers and derivatives", "statement": "Whatever calls of pow() came before: pow(x, m) * pow(x, n) = pow(x, m+n), pow(x*y, n) = pow(x, n) * pow(y, n), pow(pow(x, m), n) = pow(x, m n); the derivative of pow(x, n+1) with respect to any symbol is n+1 times pow(x, n) * diff(x, s); and diff(diff(x, a), b) = diff(diff(x, b), a).", "quantifier": "all well-formed polynomials, exponents, symbols, coefficient rings, key types, multiplication environments and reachable caches (a different one for each call)", "why_tests_cant": "laws over all polynomials and exponents, with results that may come from a cache filled by any earlier calls", "anchors": ["include/obake/series.hpp:1625-1831", "include/obake/polynomials/polynomial.hpp:2135-2184", "include/obake/polynomials/polynomial.hpp:2534-2650"]}
{"id": "C100", "title": "Programs of polynomial operations compute the polynomial they denote", "statement": "Take any program built from polynomials and coefficients by +, -, +=, -=, unary -, multiplication by a coefficient, addition and subtraction of a coefficient on either side, *, pow, diff, trim, add_symbols, truncate_degree, truncate_p_degree and subs with coefficients. If all its calls return normally, the result is a valid polynomial whose coefficients are those of the polynomial that the program denotes (computed on formal sums of terms, without reference to the library), whatever the algorithms, segmentation, scheduling and cache of powers in each call. Hence two programs that denote the same polynomial give results that compare equal, and vice versa; and evaluating the result of a program without derivatives, truncations and substitutions at a point gives the same as running the program on the values of its arguments.", "quantifier": "all programs (expressions of any depth), all well-formed arguments, coefficient rings, key types, environments and reachable caches for each operation, evaluation points in any commutative ring", "why_tests_cant": "a statement about all compositions of operations on all arguments; defects that appear only when the output of one operation (its segmentation, order of terms, symbol set, cached powers) is fed to another one escape tests of single operations", "anchors": ["include/obake/series.hpp", "include/obake/polynomials/polynomial.hpp"]}
{"id": "C101", "title": "Programs of power series operations compute the truncation of the polynomial they denote", "statement": "Take any program built from power series and coefficients by +, -, +=, -=, unary -, multiplication by a coefficient, addition and subtraction of a coefficient on either side, *, pow, trim and add_symbols, in which the truncation t may be set on any intermediate result by set_truncation. If its power series are untruncated or have the truncation t (and respect it), have no terms of negative degree, and all the calls return normally, then the result is a valid power series, untruncated or with the truncation t, all its terms are within its truncation, and their coefficients are those of the polynomial that the program denotes, computed exactly. So dropping terms at every step loses nothing: two programs that denote the same polynomial within t give results that compare equal, and it does not matter when the truncation is set.", "quantifier": "all programs (expressions of any depth), all truncations (total or partial, any limit and symbols), all valid power series without negative degrees, coefficient rings, key types, environments and reachable caches for each operation, all points at which the truncation is set", "why_tests_cant": "a statement about all compositions of truncated operations on all arguments; a term dropped too early in one operation shows only in the results of later ones", "anchors": ["include/obake/power_series/power_series.hpp", "include/obake/series.hpp", "include/obake/polynomials/polynomial.hpp"]}
{"id": "C102", "title": "Programs survive exceptions: values after any sequence of interrupted calls", "statement": "Consider a program with variables that hold polynomials, whose statements are assignments of copies, moves and numbers, +, -, +=, -= (operands lvalues, rvalues, or the same object), unary -, addition and multiplication of coefficients (binary and in place), *, pow, diff, trim, add_symbols, truncation of a copy, and subs with coefficients; any statement may be interrupted by an exception from any operation on a coefficient, key, or from an allocation, which the program catches, and it goes on using the variables. Then at every point each variable has exactly the polynomial value that follows from the statements that ended normally: an interrupted call changes only what it works on in place and what was passed to it with std::move; after an interrupted += or -= the left operand, and a moved right operand, still hold valid polynomials; and the cache of powers stays right. Only after an interrupted copy assignment the variable can merely be assigned to: the defaulted copy assignment of series copies the tables one by one before the symbol set, so the variable can be left with terms that do not belong to its symbol set.", "quantifier": "all programs and histories of statements, all points of interruption in each statement, all values a throwing coefficient operation leaves behind, all initial values, coefficient rings, key types and environments", "why_tests_cant": "Throwing at every point of every call in every history, and checking all later values, is infeasible; tests inject an exception in one call at most and look at that call only.", "anchors": ["include/obake/series.hpp: operator=, series_default_addsub_impl, series_default_in_place_addsub_impl, series_default_negate_impl, series_default_mul_impl, series_add_term_table", "include/obake/polynomials/polynomial.hpp: poly_mul_impl, pow_poly_impl"]}
{"id": "C103", "title": "Exceptions inside polynomial multiplication", "statement": "If x * y or a truncated product is interrupted by an exception at any point (merging symbols, extending an operand, the overflow check, the degrees, the segmentation, constructing, multiplying or adding coefficients, inserting terms, testing for zero, a table that is too large, in the simple algorithm or in any task of the parallel one), the exception propagates, both operands are unchanged, and every object the call had made passes the checks that the destructor of series makes in debug builds: the extended copies of the operands are valid at every moment, and the unfinished product, which may hold zero coefficients or too many terms, has been emptied. If nothing throws, the result is the product, exactly as specified for multiplication (C34) and truncated multiplication (C36), also if both operands are the same object.", "quantifier": "all polynomials over any ring and key type, with the same or different symbol sets, with or without truncation, all environments (choice of the algorithm, number of segments, sorting), all points of interruption and all values a throwing coefficient operation or a value-initialised coefficient leaves in a table", "why_tests_cant": "Tests would have to make each of the calls in the multiplication throw, one at a time, for all shapes of operands; the catch blocks are excluded from the coverage of the test suite (LCOV_EXCL).", "anchors": ["include/obake/polynomials/polynomial.hpp: poly_mul_impl_simple, poly_mul_impl_mt_hm, poly_mul_impl_identical_ss, poly_mul_impl", "include/obake/series.hpp: series_sym_extender, clear, ~series"]}
{"id": "C104", "title": "What an interrupted sum or scalar product destroys is valid", "statement": "If x + y, x - y, x += y, x -= y, x * c or x *= c (polynomials and series; the sums also for power series) is interrupted by an exception at any point, every object the call had made or modified, including the extended copies of the operands and the unfinished return value, passes the checks that the destructor of series makes in debug builds (no zero coefficient, compatible keys, right segment, no duplicate, table and segment limits), or was moved from. There is one exception: in x - y where y has more terms than x, the return value may hold a zero coefficient if the final negation of a coefficient throws and leaves a zero.", "quantifier": "all series over any ring and key type, lvalue and rvalue operands, the same object or two, the same or different symbol sets, all points of interruption and all values a throwing coefficient operation leaves", "why_tests_cant": "Tests would have to make each call inside the operations throw, for all shapes of operands, and look at temporaries which are destroyed during stack unwinding.", "anchors": ["include/obake/series.hpp: ~series, series_sym_extender, series_default_addsub_impl, series_default_in_place_addsub_impl, series_default_negate_impl, series_default_mul_impl, clear", "include/obake/power_series/power_series.hpp: ps_addsub_impl, ps_in_place_addsub_impl"]}
{"id": "C105", "title": "Table statistics", "statement": "s.table_stats() reports the number of terms, the number of tables and byte_size(s); if there are terms it also reports the average number of terms per table and the sizes of a smallest and of a largest table, which are attained, bound the size of every table, and bound the average. It is defined for every object, also an empty, cleared or moved-from one, and does not depend on the schedule of the parallel reduction in byte_size.", "quantifier": "all series over any key, coefficient and tag type, all numbers of tables and distributions of the terms, all schedules", "why_tests_cant": "The tests only look for one line of the text for two series; the distribution of terms over tables depends on hashes, and the byte size is a parallel reduction.", "anchors": ["include/obake/series.hpp: table_stats, series_default_byte_size_impl"]}
{"id": "C106", "title": "Programs with truncated power series survive exceptions", "statement": "Consider a program with variables that hold power series, which uses one truncation (a total or partial degree); its statements are assignments of copies, moves and numbers, +, -, +=, -= (operands lvalues, rvalues, or the same object; also with numbers), unary -, addition and multiplication of coefficients (binary and in place), *, pow, trim, add_symbols and set_truncation; any statement may be interrupted by an exception from any operation on a coefficient, key or tag, or from an allocation, which the program catches, and it goes on using the variables. Then at every point each variable that was not last written by an interrupted call has, within its truncation, exactly the coefficients of the polynomial denoted by the statements that ended normally, and no terms beyond it, whenever the truncation was set; the truncation set once stays in all results computed from it. An interrupted call changes only what it works on in place and what was passed to it with std::move; after an interrupted +=, -= or set_truncation the series worked on is still valid. Two histories give series with the same truncation that compare equal exactly if the statements that ended normally denote the same polynomial within it.", "quantifier": "all programs and histories of statements, all points of interruption in each statement, all initial values without terms of negative degree, all total and partial truncations, coefficient rings, key types and environments", "why_tests_cant": "Throwing at every point of every call in every history, with every truncation set at every time, and checking all later values, is infeasible.", "anchors": ["include/obake/power_series/power_series.hpp: ps_addsub_impl, ps_in_place_addsub_impl, set_truncation_impl, truncate_impl, series_mul, pow", "include/obake/series.hpp: operator=, series_default_negate_impl, series_default_mul_impl"]}
{"id": "C107", "title": "Equality is a congruence; laws of subs, diff and truncation", "statement": "In a program that computes a polynomial with the operations of the library (sums in all forms, unary -, multiplication, pow, diff, trim, add_symbols, truncate_degree, truncate_p_degree, subs with coefficients), any part may be replaced by a part that denotes the same polynomial, in particular any object by one that operator== finds equal to it: the result has the same coefficients and compares equal. Conversely programs whose results compare equal may replace each other everywhere. Such replacements include: subs of a sum, of a product or of a power is the sum, the product, the power of the subs; one subs after another is the subs of both maps, the first with precedence; subs of symbols that do not occur, and of numbers, changes nothing; diff is additive, obeys the product rule, and partial derivatives commute; diff commutes with subs of other symbols; truncation is additive; truncating twice is truncating at the smaller limit; without negative degrees a truncated product or power needs the operands only up to the limit; truncation in symbols that are not replaced commutes with subs; the derivative of the truncation at limit+1 is the truncation of the derivative at limit; += and -= compute what + and - do, and trim and add_symbols change nothing.", "quantifier": "all programs built from the operations, all objects, all limits, symbols and substitution maps, all coefficient rings with powers of the substituted values that obey v^0 = 1 and v^(p+q) = v^p v^q, all key types and environments", "why_tests_cant": "The replacements are claims about all polynomials inside all programs; a test checks one law at one polynomial.", "anchors": ["include/obake/polynomials/polynomial.hpp: polynomial multiplication, pow, diff, subs, truncate_degree, truncate_p_degree", "include/obake/series.hpp: operator==, operator+, operator-, trim, add_symbols"]}
{"id": "C108", "title": "Truncated power series: replacement and calculation within the truncation", "statement": "Consider programs on power series without terms of negative degree that use one truncation (sums in all forms, unary -, multiplication, pow, multiplication by coefficients, trim, add_symbols, set_truncation). Any part may be replaced by a part that agrees with it within the truncation: if the results have the truncation, they have the same coefficients and compare equal. Conversely, programs whose results with the truncation compare equal may replace each other, and the result of a program (in particular a copy on which the truncation is set) may replace the program. Replacements include all identities of polynomials (the laws of commutative rings); a product, or a power, whose least degrees exceed the limit is 0; a polynomial c0 + c1 a + c2 a^2 + ... in a series a without constant term needs the powers of a only up to the limit; and 1 - a is inverted by 1 + a + ... + a^n for n at least the limit.", "quantifier": "all programs, all power series without terms of negative degree, all total and partial truncations, coefficient rings, key types and environments", "why_tests_cant": "The replacements are claims about all series inside all programs and about all limits; a test checks one series with one limit.", "anchors": ["include/obake/power_series/power_series.hpp: series_mul, ps_addsub_impl, ps_in_place_addsub_impl, pow, set_truncation, operator=="]}
{"id": "C109", "title": "Substitution of polynomials, coefficient by coefficient", "statement": "Substituting polynomials for symbols of a polynomial x (no negative power of a substituted symbol) gives, coefficient by coefficient, x with those polynomials in place of the symbols, expanded; or it throws the exception of an unrepresentable product or sum, or that of a power. Substitution is a homomorphism: the result for a product of polynomials is the product of their results, and the result for a sum or a difference is the sum or difference of their results. A substituted symbol that is in none of the substituted polynomials no longer occurs; if no substituted symbol is a symbol of x, the result is x. Two substitutions one after the other are one substitution: of the first values with the second substituted in them, together with the second values of the other symbols.", "quantifier": "all polynomials, maps of symbols to polynomials, power functions, coefficient rings, key types and environments (threads, segmentation, estimates)", "why_tests_cant": "A claim about every coefficient of every result, for polynomials and maps of any size and every environment; a test compares single results.", "anchors": ["include/obake/polynomials/polynomial.hpp: poly_subs_impl, subs", "include/obake/polynomials/monomial_subs.hpp"]}
