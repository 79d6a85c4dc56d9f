# Formal model of bluescarni/obake in Rocq (Coq 8.16.1)

## 1. Method

* The model is a set of total, computable Gallina functions, one per C++ function, in `rocq/theories/*Model*.v`
  (plus `PolyConc.v`, `KeyInst.v`, `CfInst.v`). Every definition cites the file and lines of `/repo` it models;
  simplifications are said in the same comment.
* Exceptions are outcomes: `res A := Ok a | Throw e | UB` (`Base.v`). `UB` is returned wherever the C++
  would execute undefined behaviour (signed overflow, invalid shift, out of bounds access, dereferencing the end iterator);
  unsigned arithmetic wraps explicitly (`mod 2^w`). Theorems about an operation state which
  outcome is returned, so "no UB" is part of every one of them.
* Machine integer types are values of a record `ity` (width, signedness); the packable types are the four
  instances int32, uint32, int64, uint64 with the tables of `src/kpack.cpp`.
* Specifications (`*Spec.v`) are stated over plain mathematical objects: lists of integers (exponent vectors),
  functions from exponent vectors over named symbols to coefficients (`coef x e` = the coefficient of the monomial in which symbol s
  has exponent `e s`), strictly sorted lists of strings. They do not mention hash tables, segments or packed values.
* Theorems that claim a property are in `P_*.v`, each followed by `Print Assumptions` and
  accompanied by `Example`s that run the hypotheses on concrete non-trivial data (never on the empty case only).
* Key types and coefficient rings are an operations record plus a laws record (`key_ops`/`key_laws`, `cf_ops`/`cf_laws`), given as explicit
  premises of the theorems. The key laws are *proved* for packed_monomial and d_packed_monomial (all four integer
  types, any PSize): `pm_key_laws`, `dpm_key_laws`. The coefficient laws are proved for Z (mppp::integer) and Qc (mppp::rational): `Z_cf_laws`, `Qc_cf_laws`.
* Nondeterminism is modelled by relations quantified over in the theorems: the iteration order of hash tables
  (an arbitrary reordering `tbl_policy` after each insertion), the splits and joins of tbb::parallel_reduce, the interleavings of the
  workers of tbb::parallel_for, the interleavings of threads at the lock and at the flyweight registry, and the point at which an exception is thrown.
* Properties which turned out to be false of the code are kept in full in `properties.jsonl`; the theorems named `*_refuted` prove the negation of
  the full statement about the model with a concrete witness, and those named `*_partial` prove what does hold.

## 2. Trusted base

* Coq's kernel (8.16.1), including `vm_compute`, and the Coq standard library.
* `Print Assumptions` answers **"Closed under the global context" for every theorem listed in `MANIFEST.json`**: no axiom is used, neither of
  the standard library nor of our own. (A list of axioms of loaded library modules, such as `Coq.ssr.ssrunder.*`, names things which are in
  memory, not things which the theorems use.)
* No `Admitted`, no `admit`, no functor, no module type, no `Declare Module`, no plugin, no disabled kernel check. No extraction.
* The faithfulness of the model to the C++: the model was written by hand from the source text of the pinned commit. The one exception is
  `KpackTables.v`, which a script copied out of `src/kpack.cpp` and `include/obake/kpack.hpp`.
* The C++ semantics assumed: two's complement conversions (C++20), the integral promotions and usual arithmetic conversions as in `IntModel.v`,
  64-bit `size_t`, `int` of 32 bits; sequential consistency for the concurrent parts (the atomics used are acquire/release pairs guarding all
  shared data; `mt_race_free` shows that the workers of the multiplication touch disjoint tables).
* The documented contracts of libraries: boost::unordered_flat_map (a finite map with some iteration order), boost::container::flat_set/flat_map
  (sorted sequences), mp++ (mathematical integers/rationals and their conversions), TBB, std::sort, std::lower_bound/upper_bound on indices,
  `std::map`, `std::unordered_map`, boost::serialization (an archive gives back the values written in order), `operator<<` of integers and strings.

## 3. What is modelled

| code | model | not modelled |
|---|---|---|
| `detail/safe_integral_arith.hpp` | `IntModel.v`: all functions, builtin and portable versions, bool specialisations | – |
| `math/safe_convert.hpp`, `math/safe_cast.hpp` | `IntModel.v`: integral/integral, integral/mp++ integer and rational | C++ floating point |
| `detail/to_string.hpp`, `src/detail/to_string.cpp` | `IntModel.v`: the digit loop with its buffer | – |
| `kpack.hpp`, `src/kpack.cpp` | `KpackModel.v`, `KpackTables.v`: kpacker, kunpacker, divcnst, the tables verbatim | stream/type_traits plumbing |
| `polynomials/packed_monomial.hpp`, `src/polynomials/packed_monomial.cpp` | `PMonModel.v`, `PrintModel.v`, `SerModel.v`: every function | – |
| `polynomials/d_packed_monomial.hpp` | `DPMModel.v`, `PrintModel.v`, `SerModel.v`: every function | small-vector storage |
| `symbols.hpp`, `src/symbols.cpp` | `SymModel.v` | the flyweight factory of boost (a value) |
| `series.hpp`, `src/series.cpp` | `SeriesModel.v`, `SeriesModel2.v`, `PrintModel.v`, `SerModel.v`, `ExnModel.v`, `ExnModel4.v`, `SizeModel.v`, `StatsModel.v`, `PowConc.v` (concurrent calls of pow) | the selection of trimming algorithms by metaprogramming (the one of the operators, of comparison and of conversion is in `TypeModel.v`, the one of degree, truncation, pow, evaluation, substitution, derivatives and integrals in `TypeModel2.v`); the sum of table sizes is unbounded |
| `detail/xoroshiro128_plus.hpp` | `XoroModel.v` | |
| `polynomials/polynomial.hpp` | `PolyModel.v` (multiplication, simple and multi-threaded, truncated or not), `MixModel.v` (the same with different coefficient types), `RecModel.v`, `RecModel2.v`, `RecModel3.v`, `RecModel4.v`, `RecModel5.v`, `RecModel6.v` (polynomials as coefficients of polynomials: arithmetic, comparison, operations with coefficients and numbers, degrees, truncation, differentiation, integration, evaluation, trimming), `PolyConc.v` (its parallel execution), `PolyModel2.v` (subs, diff, integrate, truncation, get_truncated_mul), generators in `PSModel.v` | (the multiplication theorems take the number of segments as arbitrary; the estimator itself is in `EstModel.v`, with random numbers and floating point sparsity arbitrary) |
| `power_series/power_series.hpp` | `PSModel.v`, `MixModel2.v` (different coefficient types), `ExnModel2.v`, printing in `PrintModel.v`, serialization in `SerModel.v` |  |
| `detail/atomic_lock_guard.hpp` | `LockModel.v` (interleavings), `LockWeak.v` (release/acquire, stale reads) | executions with cycles of program order and reads-from |
| `detail/fw_utils.hpp`, `src/detail/fw_utils.cpp` | `FwModel.v` | destruction at program exit |
| exceptions in `series.hpp`, `power_series.hpp` | `ExnModel.v`, `ExnModel2.v`, `ExnModel3.v` (pow), `ExnModel5.v` (multiplication): addition, subtraction (binary, in place), scalar operations, symbol extension, filter, negation, conversion, truncation; any step may throw, and a throwing coefficient operation leaves any value in the coefficient | – |

Not modelled at all: `byte_size.hpp` (sizes of keys and coefficients are parameters), `stack_trace`, `exceptions.hpp` (only which exception type is thrown), `type_name`,
`type_traits.hpp`, `ranges.hpp`, the customisation point machinery.

General simplifications: coefficients and keys are copied as values (moves are only distinguished in `ExnModel.v`, where a moved-from coefficient
is arbitrary); running out of memory is only in `ExnModel*.v` and `FwModel.v`; the series' symbol set flyweight is its value.

## 4. Plan per property

Column "proof": the idea; the exact theorem names and what is missing are in `MANIFEST.json`.

| Property | modelled | proof |
|---|---|---|
| C01-C04 | kpacker, kunpacker, tables | mixed radix coding: the packed value is the sum of digits times partial products; induction over the sequence pushed. The finite tables are checked by `vm_compute` of a boolean checker proved sound |
| C05 | divcnst | theorem of Granlund and Montgomery proved for any divisor and width; the multiplier/shift tables satisfy its premises (checker) |
| C06-C08, C10-C16 | packed_monomial functions on packed values | each reduces to C01/C02 (`rep`: value represents exponent vector) and list reasoning |
| C09 | min/max reduction over an arbitrary binary tree of splits and joins | join-semilattice laws; every tree gives the serial result |
| C17, C18 | d_packed_monomial functions on lists of packed values | blocks of exponents of PSize, concatenation; interval arithmetic for the check |
| C19, C20 | symbols.cpp | induction over strictly sorted lists of names |
| C21-C23 | safe_integral_arith, safe_convert, to_string | case analysis + lia for all widths; digit induction with the buffer capacity |
| C24 | the closure of all modelled public operations (`made`, `made_ps`) | induction over the closure; each operation preserves `wf`; `invariants` is stated from scratch |
| C25-C33, C37, C39-C42 | series.hpp | tables are association lists with arbitrary order; denotation `coef` : exponent function -> coefficient; loops by fold invariants |
| C34, C36 | polynomial.hpp multiplication (simple and multi-threaded) | double sum reindexing; the pairs of segments multiplied into a table are exactly those whose hashes add up to it; sorted degrees make the cut-off exact |
| C35 | workers over blocks of segments, any interleaving, exceptions and cancellation | the tables are disjoint: commutation / simulation by the sequential order |
| C38 | limit conversion in truncation | case analysis of the integer conversions; witness for the refutation |
| C43 | subs | generalised evaluation: value at every point of every commutative ring |
| C44, C45 | diff, integrate | coefficient-wise identities; division only assumed for exponents |
| C46, C52 | pow cache: all caches reachable by any history of calls | cache invariant: every stored vector holds the powers of its base |
| C47 | save/load over an archive of tokens; loading into any previous object; truncated archives | parser/printer induction |
| C48, C49 | stream functions over strings, an independent reader of the printed text | string induction; witnesses for names containing "+-", the name "1", lost parentheses at rank 3 |
| C50, C51, C53 | power_series.hpp over the polynomial operations | truncated denotation `within`, `respects` |
| C54 | threads executing constructor/destructor of the guard | invariant over all traces: flag set iff exactly one guard lives |
| C55, C61 | registry with mutex, holder with static initialisation, several modules, failing allocation | invariant over all traces; witness with two modules |
| C56-C59 | as C17, C08, C28, C32 | refutations by concrete witnesses (`vm_compute`), positive parts from the exact theorems |
| C60 | make_polynomials, make_p_series (all overloads) | generator keys by the construction theorems of C06/C17 |
| C62, C63 | the operations as programs in a state monad in which every step may throw (`ExnModel*.v`) | Hoare-style invariants on the final states of all executions; `*_runs`: the exception-free executions give the results of the functional model |
| C64, C65 | `EstModel.v`: the size estimate with any random numbers, any splitting of `tbb::parallel_reduce` (`reduce`) | bounds by induction on the reduction tree and on the draws of a trial; the sum over the blocks equals the number of kept pairs; refutation by two splittings |
| C66 | `LockWeak.v`: modification orders, sets of known events (happens-before), the memory orders as parameters | invariant: the modification order is a sequence of (clear, test_and_set+) groups and the holder of a flag knows all the accesses to its variables; `orders_needed`: with either order relaxed a race is reachable |
| C67 | `MixModel.v`: the multiplication with three coefficient types; sorts as permutations chosen from the list of keys | every step commutes with the conversion of coefficients (`MixProofs.v`), so the product of the extended operands is that of PolyModel.v on converted operands; with one type the two models are convertible (`mixed_mul_one_type`) |
| C68 | `XoroModel.v`: the generator on 64-bit words, random<T>(), the seeds | an explicit inverse of the transition, bitwise | 
| C69 | `SizeModel.v`: byte_size() with any splitting of the reduction, modulo 2^64; the average over any draws; `EstModel.v`: est_log2 | sums are congruent modulo 2^64 for every reduction tree; bounds for the average; log2 of the quotient |
| C70 | `PrintModel.v`: series_text, ps_tag_text, ps_tex | cutting equal texts at the ends of numbers and names (`P_Print3.v`); terms by C48 |
| C71 | the same models of add_term, + and -, over coefficients obeying only `light_laws` (`LfSpec.v`) | the table lemmas again, tracking which coefficient is stored instead of its value (`LfProofs.v`, `LfProofs2.v`, `P_Lf.v`) |
| C72 | `PolyModel.v` with the same weak assumption | each table is a left fold of multiply-add over a permutation of the matching pairs (`LfProofs3.v`, `LfProofs4.v`, `P_Lf.v`) |
| C73 | `RecModel.v`: series as a coefficient type, plugged into the models of C71/C72 | C71/C72 say which coefficient operations are done; the exactness of the inner operations turns them into identities between flattened polynomials (`RecProofs.v`, `P_Rec.v`) |
| C74 | `RecModel2.v`: degree extraction (algorithm 1) and filtering over series of series | the sum of the two degrees is exact by C01 (safe_int_add); maxima and filters over the stored terms are carried to the flattened polynomial (`P_Rec2.v`); refutations by computation |
| C75 | `RecModel3.v`: diff and integrate over series of series | loop invariant: the coefficients of the partial result are the sums of the contributions of the processed terms (`RecProofs2.v`, from C71), each of which is exact by C44, C14 and C73 (`P_Rec3.v`) |
| C76 | `RecModel4.v`: evaluate over series of series | the value is a sum over the flattened terms; additivity and multiplicativity from C73 by linearity (`P_Rec4.v`) |
| C77 | `RecModel4.v`: trim over series of series | loop invariant on the inserted terms, injectivity of the trimmed keys, C40 for every coefficient (`P_Rec5.v`) |
| C78 | `TypeModel.v`: the compile-time selection as functions on type terms; `TypeSpec.v`: types as lists of levels | induction on the sum of the ranks (`P_Type.v`) |
| C79 | `SeriesModel.v`, `SeriesModel2.v`: scalar operations; `RecModel5.v`: the scalar on the left | from the stored terms, as for C71 (`P_Lf2.v`) |
| C80 | `RecModel5.v`: scalar operations with `rec_cf` | C79 for the coefficients of `RecModel.v`, then C20 and C71 inside every coefficient (`P_Rec6.v`) |
| C81 | `SeriesModel.v`: `series_addsub`, `series_in_place_addsub`; `MixModel2.v`: `mix_equal_to` | the lemmas of C20 and C21 for arbitrary operands; comparison commutes with the conversion of the coefficients (`P_Mix2.v`) |
| C82 | `MixModel2.v`: power_series.hpp over C81 and C67 | the visit of the truncations does not depend on the operation inside (`PSProofs.v`); C67 for the products (`P_Mix2.v`) |
| C83 | `poly_integrate` of `PolyModel2.v` with `int_div` (`P_Integ2.v`) | the proof of C45 asks nothing of the quotient (`IntegProofs.v`); refuted as stated, the exact loss is proved |
| C84 | `RecModel6.v`: `lf_cmp`, `lf_equal_to`, `lf_equal_to_cf`, `rec_equal_to`, `rec_equal_to_inner`, `rec_equal_to_scalar`, after series.hpp:1554-1589, 3443-3557; `series_equal_to_cf` of `SeriesModel2.v` | `EqProofs.v`: entry by entry for any comparison; `P_Rec7.v`: in all the symbols together |
| C85 | `PowConc.v`: `task`, `cstep`, `csteps`, `init`, `finished`, `lock_free`, `direct`, `work`, after series.hpp:1685-1716, src/series.cpp:72-81 and the documented rules of TBB (a thread waiting in a parallel algorithm runs other tasks; no isolation is used) | `PowConcProofs.v`: a measure and invariants of the stacks; `P_PowConc.v`: exclusion for all programs, progress if no pow() inside tasks, the deadlock otherwise |
| C86 | `ExnModel3.v`: `fill_powers_x`, `pow_from_cache_x`, `series_pow_x`, `poly_pow_x`, `clear_cache_x`: the functions of C46 with an exception possible at every step | `P_Exn4.v`: the invariant of the cache of C46 holds at every point where an exception can leave |
| C87 | `TexModel.v`: `rational_text`, `rational_tex`, with the printing of C48 | `TexSpec.v`: readers of TeX and of plain text with fractions; `P_Print4.v`: what they read in the texts of C49 is the terms |
| C88 | `RecModel7.v`: `rec_of_inner`, `rec_of_number`, `rec_to_inner`, `rec_to_number`; `SeriesModel.v`: `series_of_higher_rank` | `P_Rec8.v`: from the coefficients at all exponents of both levels (`coef2` of C64) |
| C89 | `CalcModel2.v`: `mix_scalar_mul`, `monomial_poly`, `loop_ops`, `diff_convert`, `integrate_convert_at`, `integrate_convert`, `poly_loop_ops` | `CalcProofs2.v`: each step of the loops adds one term to the value of the result; `P_Calc2.v`: the coefficients, and the derivative of the integral |
| C90 | `CalcModel2.v`: `ps_loop_ops`, `ps_diff_convert`, `ps_integrate_convert` | `CalcProofs3.v`: only the first sum truncates, and removes nothing; `P_PS6.v`: the coefficients, and two counterexamples |
| C91 | `RecModel8.v`: `rec_identical`, `cache_find`, `cache_put`, `rec_times`, `rec_pow_from_cache`, `rec_cf_pow`, `rec_series_pow`, `rec_pow` (buckets of the cache not modelled: all its bases are compared) | `RecPowSpec.v`: the coefficients of powers in all the symbols; `RecPow.v`: invariant of the cache (every stored polynomial is a power of its base); `P_Rec9.v`: over all reachable pairs of caches |
| C92 | `PSModel3.v`: `ps_subs_scalar` | `P_PS7.v`: invariant of the loop (coefficients up to the truncation); degrees do not grow when exponents are not negative; two counterexamples |
| C93 | `PSModel3.v`: `ps_subs` | `PSSubsSpec.v` (formal sums), `PSSubs.v`, `P_PS8.v`: equality up to the truncation is a congruence for products of formal sums without negative degrees; invariant of the loop |
| C94 | `TypeModel2.v`: the algorithm selection of degree, truncate_degree, truncated_mul, pow, evaluate, subs, diff and integrate | `TypeSpec2.v`, `P_Type2.v`: induction on the levels, from the theorems of C78 |
| C95 | the model of C48 (`PrintModel.v`), coefficients printed by `series_cf_text` | `NestPrintSpec.v` (a reader with a stack of open parentheses), `P_Print5.v`: the text is a sum of flat or parenthesised pieces; induction on pieces |
| C96 | `RecModel9.v`: [poly_subs_impl] on coefficients which are polynomials | `RecSubsSpec.v`, `P_Rec10.v`: loop invariant over the terms, from C43 (coefficients), C80 (product by a coefficient) and C73 (in-place sum) |
| C97 | the model of C50-C53 (`PSModel.v`) | `P_PS9.v`: formal sums up to a truncation (C93), equality from C31; four witnesses |
| C98 | the models of C34, C39, C46 | `DomProofs.v`: leading terms of formal sums (by degree, then lexicographic); `P_Dom.v` |
| C99 | the models of C34, C44, C46 | `P_Dom.v`: formal sums of the powers (C46), the derivation of C44 |
| C100 | `ExprSpec.v`: expressions and the formal sums they denote; the relation `computes` of `P_Expr.v` composes the models of C28, C29, C32, C33, C34, C37, C39, C41, C43, C44, C46 | `P_Expr.v`: induction on the run |
| C101 | the expressions and formal sums of `ExprSpec.v`; the relation `ps_computes` of `P_PSExpr.v` composes the models of C50, C51, C52, C28, C37, C46 | `P_PSExpr.v`: induction on the run; equality of formal sums up to the truncation (`PSSubs.v`) |
| C102 | `ExnModel4.v`: statements, variables, histories, copy assignment and unary minus with exceptions, over the models of C62 and C86; the specification `HistSpec.v` says what is known of each variable | `P_Hist.v`: induction on the history; each statement by the exception theorems of C62/C86 and the exactness of the uninterrupted call (`P_Expr.v`) |
| C103 | `ExnModel5.v`: `x_mul_simple`, `x_mul_mt`, `x_mul_identical_ss`, `x_mul_impl`, `x_mul`: the functions of C34 with an exception possible at every step, and the catch blocks | `ExnProofs5.v`, `ExnProofs6.v`, `P_MulExn.v`: uninterrupted runs are those of `PolyModel.v`; invariants of the loops; an interrupted extension is an extension of a prefix of the operand |
| C104 | Nothing new: the operations of `ExnModel.v` and `ExnModel2.v` | `P_Dtor.v`: each function leaves every location untouched, moved from or valid; composition; the negation at the end of a difference is the one exception, with a witness |
| C105 | `StatsModel.v`: `minmax_tables`, `stats_text`, `table_stats` over the byte size of C69 | `P_Stats.v`: invariant of the fold of std::minmax_element; sum of the sizes |
| C106 | `PSHistModel.v`: `ps_cmd`, `ps_exec`, `ps_history` over the interruptible operations of `ExnModel2.v`, `ExnModel.v` and `ExnModel4.v`; spec `PSHistSpec.v` | `P_PSHist.v`: invariant over histories: each variable was computed by the expression of the statements that ended normally (`ps_computes`); then C101 |
| C107 | no new code: the operations of C100; spec `LawSpec.v` | `P_Laws.v`: replacements preserve the denoted formal sum up to equality of coefficients (induction over the context), laws by computation on formal sums; then C100 |
| C108 | no new code: the operations of C101; spec `PSLawSpec.v` | `P_PSLaws.v`: replacements preserve the coefficients within the truncation (induction over the context; products because no degree is negative), laws by computation on formal sums; then C101 |
| C109 | no new code: `subs` of C43; spec `PSSubsSpec.v` | `P_Subst.v`: loop invariant: the partial result is the formal sum of the images of the terms done; `P_Subst2.v`: the image of a product of monomials is the product of the images, extended linearly; `P_Subst3.v`: composition, by images of images |

## 5. Findings (properties of the code that are refuted in the model)

| theorem | what happens | where |
|---|---|---|
| `mixed_sum_refuted` | extending a series into one with another coefficient type does not drop coefficients that became zero (check inverted) | series.hpp:547-548 |
| `trim_segments_refuted` | trim uses the segment count of the (empty) result, the result has one segment | series.hpp:4158 |
| `add_keeps_tag_refuted` | the binary sum of series with different symbol sets loses the common tag | series.hpp:2497-2529 |
| `dpm_degree_after_check_refuted` | the overflow check bounds sums of exponents, not their running sums: degree may throw afterwards for signed types | d_packed_monomial.hpp:834-897 |
| `dpm_compatible_exact_refuted` | unused slots of the last pack may be nonzero in an accepted key | d_packed_monomial.hpp:270-330 |
| `scalar_add_compatible_refuted` | adding a scalar creates the unit key without checking that the symbol set fits the key type | series.hpp:2347-2373 |
| `negative_limit_refuted` | a negative limit compared with an unsigned degree becomes the largest value, nothing is truncated | polynomial.hpp truncation comparisons |
| `dpm_truncated_mul_refuted` | partial degree of signed exponents: the truncated product may throw although the plain product does not | polynomial.hpp:1119ff |
| `ps_pow_truncated_exactly_refuted` | with negative exponents the truncated powers lose terms of the truncated exact power | power_series.hpp:1371-1386 |
| `names_kept_refuted`, `symbol_one_refuted`, `three_levels_refuted` | printed text: "+-" inside a name is rewritten, a symbol named 1 disappears, parentheses are lost at rank 3 | series.hpp:2050-2057, src/series.cpp:22-56 |
| `quoted_names_refuted` | the symbol sets {a, b} and {"a', 'b"} print alike | src/symbols.cpp:42-56 |
| `get_constructed_refuted` | with two modules (DLLs) the holder can return storage in which the object is not constructed yet | fw_utils.hpp:44-78 |
| `ps_keeps_truncation_refuted`, `ps_respects_truncation_refuted` | an exception in an in-place sum can leave a power series without its truncation, or with terms above it | power_series.hpp:1159-1217 |
| `negate_invariants_refuted` | a throwing coefficient negation can leave a zero coefficient in the series | series.hpp:1847-1861 |
| `estimate_schedule_refuted` | the number of segments of a product depends on how the trials of the size estimate are split into blocks: the index vector is copied once per block and reshuffled cumulatively | polynomial.hpp:659, 686 |
| `product_order_refuted` | x * y multiplies the coefficients of y by those of x, in this order, when x has more terms: wrong for coefficients that do not commute | polynomial.hpp:2014-2022 |
| `rec_truncation_refuted` | truncate_degree on a polynomial with polynomial coefficients drops stored terms as a whole: truncating (x + y^2) a + (x - 3) b^2 to degree 2 gives 0 although x a and -3 b^2 have degree 2 | polynomial.hpp:2364-2378, 2426-2445 |
| `rec_degree_types_refuted` | if key and coefficient degrees have types of different signedness, a negative degree is silently converted: a^-1 over coefficients with unsigned exponents has degree 2^64 - 1 | series.hpp:3685-3692, 3828-3836 |
| `in_place_sum_refuted` | `x += y` compiles for types for which `x + y` does not: conversions ignore the tags of the inner levels | series.hpp:428, 2649-2658 |
| `scalar_left_refuted` | `b * x` for a scalar b computes `c *= b` for every coefficient c: with a non-commutative coefficient type it is x * b | series.hpp:3144, 3172-3176 |
| `int_antiderivative_refuted` | with integer coefficients the division by the exponent truncates: `integrate(a, "a")` is 0 for `polynomial<packed_monomial<long long>, mppp::integer<1>>`, silently | polynomial.hpp:2688-2696, 2815 |
| `pow_tasks_deadlock_refuted` | pow() holds the mutex of its cache while multiplying with parallel algorithms: when called inside tasks, a waiting thread may take another task calling pow() and block on the mutex it holds itself | series.hpp:1685-1710 |
| `ps_diff_convert_truncation_refuted` | diff() and integrate() of a truncated power series without terms, when the coefficient type changes, give one without truncation and without symbols (the comment of the code says that this can happen) | power_series.hpp:1403-1416 |
| `ps_integrate_convert_respects_refuted` | integrate() of a truncated power series, when the coefficient type changes, leaves terms beyond the truncation: only the first sum of the loop truncates | power_series.hpp:1418-1440 |
| `rec_pow_symbols_refuted` | the symbols of the coefficients of pow() of a polynomial with polynomial coefficients depend on the history of the cache: bases whose coefficients have equal values but different symbol sets are identical for the cache | series.hpp:1594-1598, 1690-1715 |
| `ps_subs_truncation_refuted` | subs() of a truncated power series without terms gives one without truncation and without symbols | power_series.hpp:1396-1401 |
| `ps_subs_respects_refuted` | subs() of a truncated power series with negative exponents leaves terms beyond the truncation: only the first sum of the loop truncates | power_series.hpp:1396-1401, polynomial.hpp:2302 |
| `evaluation_is_number_refuted` | `evaluate(p, symbol_map<int>)` and `subs(p, symbol_map<int>)` compile and return `p` unchanged (integers cannot be raised to integral powers, and the fallbacks of math/evaluate.hpp:61-63 and math/subs.hpp:47-49 accept everything) |
| `ps_mul_associative_refuted`, `ps_distributive_refuted`, `ps_truncate_multiply_refuted`, `ps_leibniz_refuted` | Power series with negative exponents: (a^-1 a) a is a, a^-1 (a a) is 0 with limit 1; the same for a^-1 (a^2 + 1) when only 1 is truncated, and for truncating factors first. diff(x*y) lacks the terms of the limit degree which diff(x)*y + x*diff(y) has | power_series.hpp:1284-1367, 1411-1440 |
| `copy_assign_refuted` | `series.hpp:815`, `1516-1519`: the defaulted copy assignment assigns the tables one by one, before the tag and the symbol set: if copying a term throws, the series assigned to can hold terms of the other series that are not compatible with its own symbol set |
| `sub_destroys_refuted` | `series.hpp:2466-2476`: `x - y` with a longer `y` negates the return value without a catch block: if the negation of a coefficient throws and leaves a zero, the unfinished return value has a zero term (an assertion in the destructor fails in debug builds) |

## 6. Testing the theorems

`seeded/LOG.jsonl` lists the wrong programs tried: each is an edit of a model definition, with the theorems whose proofs failed.
