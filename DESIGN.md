# Design of the formal model of boostorg/interval

## 1. What is modelled

Boost.Interval is a header-only C++ template library.  Every public function is
a short straight-line/branching computation on two bounds of a base number type
`T`, executed in a floating-point environment whose rounding mode the library
changes.  The model is a shallow embedding.

| file | what it models |
|------|----------------|
| `Outcome.v` | outcomes of a C++ evaluation (`Ok`, `Throw e`, `AssertFail`, `UB`, and `NoFuel` for loops run with a budget); the state monad `M A = rmode -> outcome A * rmode`; unspecified argument evaluation order as an oracle `site -> bool` |
| `Base.v` | base number type (record `num`), rounding controls, `rounded_arith.hpp` (exact, std, opp), `rounding.hpp` (`save_state`, `save_state_nothing`, unprotection), `policies.hpp` |
| `Checking.v` | `checking.hpp` |
| `Interval.v` | `interval.hpp`, `detail/test_input.hpp`; mutating members act on an object store with explicit aliasing of the argument |
| `Utility.v`, `Arith.v`, `Arith2.v` | `utility.hpp`, `arith.hpp`, `detail/division.hpp`, `arith2.hpp`, `arith3.hpp` |
| `Compare.v`, `Mixed.v` | `compare/*.hpp` and the set predicates over two policies, the default comparisons are in `Interval.v` |
| `Transc.v` | `constants.hpp`, `rounded_transc.hpp`, `transc.hpp`; the C math library is an oracle |
| `Extras.v` | `limits.hpp`, `io.hpp`, `ext/integer.hpp` |
| `HwControl.v` | control words of `detail/*_rounding_control.hpp`, `ext/x86_fast_rounding_control.hpp` |
| `FloatNum.v` | float, double, long double as one family of Flocq formats: base format, format of expressions (SSE or x87), format of `rint`; `hw_rounding.hpp`, `detail/x86*_rounding_control.hpp` at the level of rounding modes |
| `ExactNum.v` | exact ordered fields and machine integers as base types |
| `Ops.v`, `ExprT.v`, `Program.v`, `Client.v` | expressions and client programs over the API (sequences of calls, branches, handlers, rounding scopes, objects) |
| `Examples.v`, `ExNewton.v`, `ExFilter.v`, `ExFindroot.v`, `ExIo.v`, `ExTransc.v`, `ExRational.v` | `examples/horner.cpp`, `examples/newton-raphson.cpp`, `examples/filter.cpp`, `examples/findroot_demo.cpp`, `examples/io.cpp`, `examples/transc.cpp`, `examples/rational.cpp` |

Every definition cites file and lines.  The vocabulary of the statements (real
intervals, directed rounding, tightest enclosure, ...) is in `Spec.v`,
`SpecCompare.v`, `SpecTransc.v`, `SpecExact.v`, `SpecHw.v`, `SpecOrder.v`.  Proofs live in the
other files; the final statements, each followed by `Print Assumptions` and by an
`Example` that meets its hypotheses, are in `Properties1.v` ... `Properties52.v`.

## 2. How the properties are proved

`Spec.v` gives bounds a meaning in the extended reals, `val : T -> ext`, an
interval denotes a set of reals, and `tightest` says: contains the set, and any
interval with representable bounds that contains the set contains this one.

1. For Flocq floats each directed operation is shown to return the greatest
   representable number below (least above) the extended-real result, for every
   format, every expression format and both `std` and `opp` (`FloatSpec.v`).
2. Interval functions are proved correct from that interface (order-theoretic:
   the real image set has glb/lub equal to the extended-real corner value).
3. Mode restoration, evaluation-order independence, protected/unprotected and
   std/opp agreement are proved for all inputs (NaN, infinities, unordered
   bounds included) by a compositional relation on computations.
4. Expression-level theorems (C23, C24, C57) are inductions over expression
   trees / coefficient lists.
5. Documented claims that the code does not satisfy are kept in
   properties.jsonl and refuted by a theorem with suffix `_refuted`, next to the
   strongest true statement (suffix `_partial`).

## 3. Property by property

| id | model / method |
|----|----------------|
| C01-C05, C09, C13, C14 | glb/lub of the image set + directed rounding; case analysis on signs, infinities. C05 tightness is false for x=[a,0], a<0 and a divisor touching 0 on one side: refuted, exact characterisation proved |
| C06 | same for each half, by sign of the divisor |
| C07 | both sides tight for the same set, or same directed calls |
| C08, C30 | object storage model with references aliasing the target |
| C10 | induction on the binary exponent; invariant y * x^(2p) |
| C11, C12 | refuted (empty result for [0,0]; UB for INT_MIN); partial otherwise |
| C15, C32, C33, C36 | order lemmas + directed rounding |
| C16, C19 | nth_root: refuted under the protected default policy, soundness of the loop proved when the mode is the one init() would set; `RootInf.v` adds infinite bounds for the policies that do not create empty intervals |
| C17 | strictly decreasing chain of pairs of floats in a finite set |
| C18 | compositional `Stable` predicate over all functions |
| C20-C22 | binary logical relation between two policies |
| C23-C25 | induction over expression trees |
| C26-C28 | case analysis over checking policies |
| C29, C31 | directed conversion; unsigned / INT_MIN refuted for opp |
| C34, C35 | nearest rounding, monotone; overflow refuted |
| C37-C42 | order lemmas on extended reals |
| C43, C44 | floor of directed quotient; C44 refuted for large quotients |
| C45 | bounds on pi from the standard library (Machin formula) |
| C46-C48 | math library as an oracle with an explicit honest-rounding hypothesis; opp refuted |
| C49 | double rounding in one direction, part of the float instance |
| C50, C51 | instances with Q and machine int |
| C52, C53 | as C01-C05 with singletons; C53 refuted for wide ints |
| C54 | control words as integers with bit operations |
| C55, C56 | direct |
| C57 | induction on the coefficient list |
| C58 | each iteration keeps every root (mean value theorem) and what it pushes has fewer floats than what it popped; the loop ends by induction on a cost of the stack. Two numeric facts are needed: the enclosure of f contains 0 only within 2^-8 of a root, the enclosure of f' does not contain 0 within 2^-7 of a root |
| C59 | invariant of the elimination: up to a positive factor and the sign kept so far, the determinant is the one of some real matrix enclosed by the remaining intervals (Schur complement, row exchange: `Det.v`) |
| C60 | the check bounds the row norms of PA U L - I by 1, so its determinant is positive (diagonal dominance); U and L are triangular, and the sign of a finite 1/d is the sign of d. Refuted for matrices that overflow |
| C61 | worklist invariant: every element lies in the range and is within a depth; an element of depth n costs at most 2^(n+1)-1 iterations; the midpoint is within one spacing of the middle. Refuted for ranges beyond 2^33 |
| C62 | instances of C61 for the three functions, by C04, C05, C46, C47 and the theorems on sqrt and pow |
| C63 | both sides are tightest enclosures of the same set; negation maps tightest enclosures to tightest enclosures |
| C64 | induction on the expression, from C23's steps and C46, C47 |
| C65 | stream = remaining text, fail and eof flags; case analysis on the reading steps against a grammar; an indeterminate value is `None`, copying it `UB` |
| C66 | MPFR = abstract numbers with set_d, get_d and the functions, assumed to round correctly; the best bound of a set of values (limits at infinite bounds and at the bounds of the domain) rounded gives the tightest interval; reuses C47 for sin, cos, tan and C64 for expressions |
| C67 | tightest enclosures of nested sets are nested (C66), then induction on the two expressions; sin, cos and tan refuted by nested doubles for which the reduction modulo the period differs, computed up to the last call of the library |
| C68 | the operations of the reduction give the exact bounds when no period is removed (C43_fmod_reduced), so the branch taken applies the correctly rounded function to the bounds of the operand; the range by following every branch; sin refuted at [0,0], computed up to the last call of the library |
| C69 | a tightest interval of a representable set is that set; induction on the expression; pow by showing that all its intermediate powers are representable when the result is (odd part of the mantissa); integers by the intermediate value theorem |
| C70 | relative error of one rounding (Flocq) applied to the infimum and supremum of the exact set; inclusion isotonicity (C24) bounds the operands of every node by their values over the large box; induction on the expression with a Lipschitz estimate per operation; for pow an error bound carried through the square-and-multiply loop |
| C71 | every coarse number is a fine one, so a fine tightest interval is inside any coarse enclosure; pow and division by intervals with zero bounds, which are not tightest, by relating the two runs of the power loop step by step and by the case where the coarse result is the whole line; induction on the expression |
| C72 | a printed interval was kept because the value contains zero (C61); by C70 that value is narrow, and it contains the true values; with transcendental functions the width is bounded by the error analysis of C75 (`Properties31.v`) |
| C73 | the result is a fixed point of the Newton step (C17); at a fixed point the rounded midpoint is an end, or its power is the argument up to rounding, and the relative error of each operation of the step bounds the width; reciprocals for arguments below one; the stuck case by computation |
| C74 | the reduced interval is within a computed distance of the argument minus a multiple of 2 pi (each operation of fmod is tightest, the number of periods is the floor while the claim is not trivial); in each branch of cos the two bounds are within 2 units of cos at points close to the reduced interval; intermediate value theorem and Lipschitz bound; sin through pi/2; tan through monotonicity and a bound on tan away from its poles |
| C75 | induction on the expression: each operation is tightest or exact (C01-C15, C36, C52, C66), so the result is within one rounding of the image of the operands; pow by C70_pow; sin, cos and tan by C74 |
| C76 | `SpecUser.v` states the documented requirements on base type and rounding policy; the case analyses of the operators are redone with bounds that are only known to be on the right side (`CoreSound.v`), relative to any monotone rounding of the results so that the same proof gives box arithmetic; induction on the expression (`ExprSound.v`); instances in `BoxProof.v`; pow refuted by a computed witness |
| C77 | `SpecTransc.v` (`doc_domain`, `doc_down`, `doc_up`) states the documented domains; the proofs for the float policies (`CoreTransc.v`, `CoreTrig.v`) only use bounds at arguments proved to be in them; `CoreTranscSound.v` redoes the functions for arithmetic that only returns bounds, `ExprTSound.v` does the induction on expressions; cos and sqrt refuted by computed witnesses |
| C78 | `SpecFault.v` says what a failure is, what it means that the base type and the policies do not produce it, and lists the functions of the library (`library`, `comparison`); `NoFault.v` goes through them compositionally with a Hoare-style rule for each construct; the iterations in pow, nth_root and fmod by induction |
| C79 | from the exact results of C02, C04, C05, C09, C15 and the comparison theorems C37, C38; std::max modelled as in the C++ standard (a call of <); the two false sentences by computed witnesses |
| C80 | `SpecOrdered.v` states the documented order laws over an abstract `exact_type` (`ExactNum.v`) and gives expressions a value in the base type; `OrderedProof.v` redoes the case analyses with monotony lemmas derived from the laws (setoid ring), then induction on expressions; dual numbers and rationals as instances, two types with the laws but without ring identities as counterexamples |
| C81 | `SpecInt.v` runs the same expressions on machine integers (exact steps that must fit, truncating division) without referring to intervals; `IntProgProof.v` proves by induction on expressions that a returned interval contains every such run and that no run overflows; division computed bound by bound |
| C82 | the same instance `int_num` of the base type; bounds computed exactly, truncating division by 2, case analysis on whether the sum of the bounds fits |
| C83 | `ExOverflow.v` models test/overflow.cpp; induction on the number of iterations for inclusion, and no number of the format lies between r*f^n and r/g^n once both are out of range (`OverflowProof.v`) |
| C84 | `ExDet.v` models test/det.cpp as a client program for any dimension; its calls are scoped and contain no fmod, so C20 and C22 apply, and the protected text is the unprotected one up to the type (`DetProof.v`) |
| C85 | the scalar evaluation of `SpecBox.v`; a directed bound of the exact result is a bound of its rounding in any mode, so the library's policies meet the requirements of C76 for rounded results, and the induction of C76 applies |
| C86 | `ExFmod.v`: the user rounding of test/fmod.cpp over the exact int arithmetic; truncated division corrected by the sign of the remainder is the floor for positive divisors, then the bounds of the product and difference of C51 give the exact set and the exact overflow condition |
| C87 | a tightest enclosure of a smaller set is inside any enclosure of a larger one (C01-C05, C07, C52); bounds of square and product compared through candidate intervals and minimality (C04, C09); C13 and C15 for sqrt and abs; the bounds of the constants are dyadic numbers of which the double is exact |
| C88 | `ExAdd.v`: the symbolic base type, rounding control and checking policy of test/add.cpp; the two mutually recursive operators end (`AddProof.v`); every simplification keeps the meaning of a formula for all variables and all rounding functions; the calls are evaluated for arbitrary formulas |
| C89 | the operators of `Compare.v` and `Interval.v` over any `num` with a total order (`SpecOrder.v`) and any `checking` record; `CmpProof.v`: the tests on bounds are equivalent to statements about all or some pairs of members; `ExCmp.v`: the checking policy of test/cmp_exn.cpp |
| C90 | the set functions of `Utility.v` over any `num` with a total order and any `checking` record, with the vocabulary of `SpecOrder.v`: direct proofs from the order laws |
| C91 | `ExRational.v`: examples/rational.cpp over the rationals of the Coq library; the four compound assignments are evaluated for arbitrary rationals and the resulting bounds compared with the sets |
| C92 | The histories are an inductive predicate over the constructors, members and set functions, for any record of numbers with a total preorder and any coherent policy; the invariant is proved by induction on the history |

## 4. Trusted base

* Coq 8.16.1's kernel, and `vm_compute` (part of the kernel) in examples and
  refutations.
* Flocq 4.1.0's definitions of binary formats and rounding as the meaning of IEEE
  754 arithmetic.  Flocq is used as a library of definitions and lemmas; it adds
  no axiom.
* The axioms of section 5.
* The reading of the C++: template instantiation, overload resolution, promotion
  rules and the order of constructors and destructors were done by hand; each
  definition cites its lines, and simplifications are said in its comment.
* Hypotheses that stand for something outside the library.  They appear in the
  statements, not as axioms:
  - `lib_ok` (C46-C48): the C math library returns a value on the right side of
    the real one in the current rounding mode and honours its special cases.
    `RefLib.v` shows that a correctly rounded library meets it.
  - `lib_rounds`, `mpfr_ok` (C66-C68): the C math library, or MPFR, rounds
    correctly.  Met by the reference libraries of `RefLib.v` and
    `Properties21.v`.
  - `exact_field` (C50): the base type is an exact ordered field; met by the
    rationals.
  - the meaning of FPU control registers and of `_control87`, `fesetround`
    (C54): `SpecHw.v` restates the manuals.
  - the values of `numeric_limits<T>` (C55) and the printer of `T` (C56) are
    parameters.
  - loops that have no bound in the source (`nth_root`, the periodic reduction of
    the trigonometric functions, the Newton loops) take a budget; theorems say
    that some budget suffices and that any larger one gives the same result.

Not modelled: floating-point exception flags, NaN payloads and signs of NaN;
compiler optimisations that ignore the rounding mode (the library requires
`-frounding-math`-like behaviour); threads and signals; memory exhaustion; stream
state other than the flags of C65 (locale, field width);
`interval_lib::user` hooks other than the ones of the base types above; the two
policies of a mixed comparison are distinct only for C32, C37-C42 and the
conversions; doc, test and example programs other than those named in C57-C68, C83, C84 and C86-C91.

## 5. What Print Assumptions lists

Only axioms of Coq's standard library: the two axioms of the construction of the
reals (`sig_forall_dec`, `sig_not_dec`), functional extensionality and excluded
middle.  They come from `Reals`, on which Flocq's real-number semantics is built.
The list is produced by `tools/assumptions.py`:

<!-- assumptions -->
* `ClassicalDedekindReals.sig_forall_dec`, `ClassicalDedekindReals.sig_not_dec`, `Classical_Prop.classic`, `FunctionalExtensionality.functional_extensionality_dep`:
  C01_add_tightest C02_sub_tightest C03_neg_exact C04_mul_tightest C05_div_by_zero_empty C05_div_encloses_partial C05_div_tightest_refuted C06_parts_sides C06_two_part_division C06_zero_divisor C07_add C07_div C07_fmod C07_max_min_hull C07_mul C07_sub C08_add_number_refuted C08_compound_interval C08_compound_number_partial C09_square_refines_product C09_square_tightest C10_pow_negative_encloses C10_pow_negative_zero_empty C10_pow_positive_encloses C11_pow_zero_is_one_partial C11_pow_zero_is_one_refuted C12_pow_total_partial C12_pow_total_refuted C13_sqrt_negative_empty C13_sqrt_tightest C14_inverse_tightest C14_inverse_zero_empty C15_abs_exact C15_max_exact C15_min_exact C15_norm_least_upper_bound C16_nth_root_encloses_partial C16_nth_root_infinite_refuted C16_nth_root_negative_empty C16_nth_root_no_empty_partial C16_nth_root_of_pow_no_empty_partial C16_nth_root_of_pow_partial C16_nth_root_refuted C17_budget_irrelevant C17_loop_fixed_point C17_nth_root_terminates C18_call_mode_restored_partial C18_mode_restored_partial C18_mode_restored_refuted C19_mode_independent_partial C19_mode_independent_refuted C19_nth_root_std_partial C20_std_opp_operations C20_std_opp_programs C21_mode_independent C21_order_independent C21_subexpressions C22_unprotected_equals_protected_partial C22_unprotected_equals_protected_refuted C23_fundamental C24_isotone C24_throws_below C25_bisect_refuted C25_infinite_number_refuted C25_never_nan_partial C25_step_defined C25_validity_partial C26_empty_propagates C26_nth_root C27_no_empty C28_assign_nan C28_caught C28_caught_after_empty C28_not_nan C28_reported_constructors C28_reported_hull C28_reported_operators C29_assign_converted C29_assign_copy C29_assign_interval C29_assign_number C29_assign_policy C29_copy C29_default C29_from_float C29_from_float_pair C29_from_float_pair_unordered C29_from_interval C29_from_interval_empty C29_from_policy C29_from_policy_empty C29_mixed_pair C29_mixed_signs_refuted C29_number C29_pair C29_pair_set C29_pair_unordered C30_assign_partial C30_assign_refuted C30_assign_unordered C31_least_refuted C31_narrow_partial C31_signed_exact_partial C31_signed_pair_partial C31_signed_partial C31_unsigned_opp_pair_partial C31_unsigned_opp_partial C31_unsigned_pair_partial C31_unsigned_partial C31_unsigned_refuted C32_accessors C32_empty C32_equal C32_hull C32_hull_numbers C32_in C32_in_infinite C32_in_nan C32_intersect C32_mixed C32_overlap C32_proper_subset C32_singleton C32_subset C32_zero_in C33_width_empty C33_width_least_upper_bound C34_median_inside_wide C34_median_partial C34_median_refuted C34_median_unbounded C35_bisect_covers_partial C35_bisect_partial C35_bisect_refuted C36_widen_tightest C37_default_empty_throws C37_default_infinite_number_sound C37_default_nan_throws C37_default_number_three_way C37_default_three_way C38_certain_all C38_certain_number C38_dual C38_empty_throws C38_infinite_number_sound C38_nan_number C38_possible_number C38_possible_some C39_infinite_number_sound C39_nan_number C39_tribool C39_tribool_empty_throws C39_tribool_number C40_empty_throws C40_infinite_number C40_lexicographic_meaning C40_nan_number C40_number_as_singleton C40_total_order C41_empty_least C41_mixed C41_number_throws C41_set_inclusion C42_explicit C42_explicit_number C42_forms_agree C42_infinite_number_sound C42_nan_number C43_fmod_numbers_partial C43_fmod_partial C43_fmod_reduced C43_refuted C44_fmod_below_modulus_partial C44_refuted C45_constants C45_tight C46_atanh_refuted C46_empty_partial C46_opp_refuted C46_values C46_values_opp_partial C47_cos_sin C47_tan C48_partial C48_refuted C49_wide_evaluation_directed C52_number_functions_tightest C53_float_refuted C53_integers_partial C55_infinity C55_quiet_NaN C55_singletons C56_injective C56_output C57_horner C57_horner_unprotected C58_newton_empty C58_newton_no_empty C59_algo1_sign C59_algo1_triangular C60_algo2_sign_partial C60_algo2_sign_refuted C61_ends_refuted C61_find_zeros2_partial C61_find_zeros_partial C62_program C63_commutative C63_double C63_lattice C63_negation C63_neutral C64_fundamental C64_fundamental_opp C65_accepts C65_defined_refuted C65_empty C65_nan C65_rejects_partial C65_round_trip C66_expressions C66_program C66_std_tightest C66_tightest C66_values C67_isotone_defined_mpfr_partial C67_isotone_defined_partial C67_isotone_mpfr_partial C67_isotone_partial C67_reduction_refuted C68_range C68_range_mpfr C68_sin_tightest_refuted C68_tightest_mpfr_partial C68_tightest_partial C69_exact C69_integers C69_pow_exact C70_binary C70_convergence C70_pow C70_unary C71_outcome C71_precision C72_search C72_search2 C72_search2_transcendental C72_search_transcendental C72_sine_zeros C73_nth_root_accurate_partial C73_nth_root_inaccurate_refuted C74_sin_cos_accurate C74_sin_cos_accurate_mpfr C74_tan_accurate C75_error_analysis C75_error_analysis_mpfr C76_box C76_library_policies C76_pow_refuted C77_cos_refuted C77_domains C77_inclusion_partial C77_sqrt_domain_refuted C77_tan_partial C78_comparison_refuted C78_floats C79_certain_self_refuted C79_default_complement C79_hull_union C79_max_apart C79_not_singletons C79_self_comparisons C79_singletons C79_square_is_product C79_std_max_partial C79_std_max_refuted C83_few_refuted C83_overflow_test C83_round_trip C83_ten_thousand C84_det_test C84_variants C85_error_bound C85_float_program C85_unary_test C87_binary_test C87_pi_test C87_sqrt_program C87_sqrt_refuted C87_sqrt_test C87_square_sqrt C87_square_test
* no axiom (closed under the global context):
  C54_directions C54_library C54_programs C54_programs_library C54_restores C54_restores_register C54_x87_words C78_comparison_partial C78_origin C80_field C80_identities_needed C80_inclusion C80_ring C81_int_division C81_pow_overflow_refuted C81_release_division_refuted C82_bisect C82_bisect_progress_partial C82_bisect_progress_refuted C82_median C82_median_defined_refuted C82_norm C82_width C86_negative_divisor_refuted C86_no_overflow C88_test C89_empty C89_explicit C89_intervals C89_nan C89_numbers C89_set_number C89_sets C89_sets_mixed C89_test_policy C90_hull C90_hull_number C90_hull_numbers C90_in C90_intersect C90_max_min C90_max_min_number C90_overlap C90_singleton C90_zero_in C91_rational C92_calls C92_invariant C92_members C92_values
* `ClassicalDedekindReals.sig_forall_dec`, `FunctionalExtensionality.functional_extensionality_dep`:
  C50_div_zero C50_div_zero_release C51_division_not_enclosing C86_fmod C86_fmod_number C86_negative_overflow_refuted C86_number_fmod C88_add C88_add_assign C88_add_assign_number C88_add_number C88_neg C88_number_add C88_number_sub C88_sub C88_sub_assign C88_sub_assign_number C88_sub_number
* `ClassicalDedekindReals.sig_forall_dec`, `ClassicalDedekindReals.sig_not_dec`, `FunctionalExtensionality.functional_extensionality_dep`:
  C50_binary C50_pow C50_unary C51_operations C76_inclusion_partial C81_int_program
<!-- end assumptions -->

## 6. Testing the theorems

`tools/seed.py` edits the model in a scratch copy as in `seeded/mutants.py`,
rebuilds the interfaces, checks every proof of every dependent file and reports
the lemmas whose proofs fail and the theorems that rest on them;
`seeded/LOG.jsonl` has one line per edit. Many later edits were run with
`SEED_QUICK`, which checks only the files that the broken claim needs, and those
of C89-C92 with `tools/seed_mini.py`, which checks only CmpProof.v and
Properties49-52.v: for these, `other_theorems_failed` is not complete.
"detected" means that a proof of the claim no longer goes through; that the
statement itself is false of the edited model is not proved. Edits that do not
type-check, so that no proof could be tried, are not in the log.
