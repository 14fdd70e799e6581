claim("C16", "partial", "C16_nth_root_encloses_partial C16_nth_root_negative_empty C16_nth_root_of_pow_partial C16_nth_root_no_empty_partial C16_nth_root_of_pow_no_empty_partial C16_nth_root_refuted C16_nth_root_infinite_refuted",
  "Proved when the rounding mode is the one the policy assumes (always so under rounded_arith_std) and the degree is at most 2^precision: for all valid intervals under the checking policies that do not create empty intervals (the default one included), and under the others for finite bounds whose reciprocals do not overflow. Refuted under the defaults when called in round-to-nearest, and for infinite bounds under checking_base.")
claim("C17", "proved", "C17_nth_root_terminates C17_budget_irrelevant C17_loop_fixed_point")
claim("C19", "partial", "C19_mode_independent_partial C19_nth_root_std_partial C19_mode_independent_refuted",
  "Every modelled call but nth_root is independent of the ambient mode; nth_root under the default policy is not (refuted), under rounded_arith_std it is.")
claim("C34", "partial", "C34_median_partial C34_median_inside_wide C34_median_unbounded C34_median_refuted",
  "lower+upper may overflow (refuted); proved whenever the sum is in range or is evaluated in a format with a wider exponent range.")
claim("C35", "partial", "C35_bisect_covers_partial C35_bisect_partial C35_bisect_refuted",
  "Coverage for every valid interval but the whole line; exact split into two valid halves when lower+upper does not overflow; refuted for the whole line.")
claim("C37", "proved", "C37_default_three_way C37_default_empty_throws C37_default_number_three_way C37_default_infinite_number_sound C37_default_nan_throws",
  "Every relation, operand policies may differ; interval-interval and interval-number. For an infinite number the answer, when one is given, is right for every member; a NaN number always throws.")
claim("C38", "proved", "C38_certain_all C38_possible_some C38_certain_number C38_possible_number C38_dual C38_empty_throws C38_infinite_number_sound C38_nan_number",
  "For an infinite number the answers certain and not possible are right for every member. A NaN is reported by the checking policies that look for it; the others answer that nothing is certain and only != is possible.")
claim("C39", "proved", "C39_tribool C39_tribool_number C39_tribool_empty_throws C39_infinite_number_sound C39_nan_number", "For an infinite number a definite answer is right for every member; a NaN is reported or gives the indeterminate answer.")
claim("C40", "proved", "C40_lexicographic_meaning C40_total_order C40_number_as_singleton C40_infinite_number C40_nan_number C40_empty_throws",
  "Antisymmetry is up to equality of bounds as numbers (signed zeros identified).")
claim("C41", "proved", "C41_set_inclusion C41_empty_least C41_number_throws C41_mixed", "With two different policies (C41_mixed) only <, >, == and != exist: <= and >= call subset, which takes one policy.")
claim("C42", "proved", "C42_explicit C42_explicit_number C42_forms_agree C42_infinite_number_sound C42_nan_number")
claim("C07", "proved", "C07_add C07_sub C07_mul C07_div C07_max_min_hull C07_fmod")
claim("C43", "partial", "C43_fmod_partial C43_fmod_numbers_partial C43_fmod_reduced C43_refuted",
  "Proved whenever no quotient r/s is below minus the largest finite number; beyond it the integer overflows to -inf and the result has no member (refuted).")
claim("C44", "partial", "C44_fmod_below_modulus_partial C44_refuted",
  "Proved when the quotients are at most 2^precision; refuted beyond.")
claim("C29", "partial", "C29_default C29_number C29_pair C29_pair_set C29_pair_unordered C29_from_float C29_from_float_pair C29_from_float_pair_unordered C29_copy C29_from_policy C29_from_policy_empty C29_from_interval C29_from_interval_empty C29_assign_number C29_assign_converted C29_assign_copy C29_assign_policy C29_assign_interval C29_mixed_pair C29_mixed_signs_refuted",
  "All constructors and assignments. The constructor from two numbers of different types is proved when operator<= on the source types is the order of their values; refuted for a signed and an unsigned integer.")
claim("C31", "partial", "C31_signed_partial C31_signed_pair_partial C31_signed_exact_partial C31_unsigned_partial C31_unsigned_opp_partial C31_narrow_partial C31_unsigned_pair_partial C31_unsigned_opp_pair_partial C31_unsigned_refuted C31_least_refuted",
  "Enclosure for signed integers other than the least one, for all types narrower than int and, under rounded_arith_std, for unsigned ones. Under rounded_arith_opp an unsigned v gives the enclosure of [v-2^w, v], and the least signed integer is undefined behaviour.")
claim("C26", "proved", "C26_empty_propagates C26_nth_root",
  "Every call of the API table (Program.v) plus nth_root. Comparison operators throw. Number arguments are not NaN (see C28).")
claim("C27", "proved", "C27_no_empty", "Number operands finite, widen by a nonnegative number.")
claim("C28", "proved", "C28_reported_operators C28_reported_hull C28_reported_constructors C28_caught C28_caught_after_empty C28_not_nan C28_assign_nan",
  "Under checking_catch_nan an operator whose interval operand comes first and is already empty returns empty before looking at the number (C28_caught_after_empty); in every other case it throws.")
claim("C23", "proved", "C23_fundamental", "Expressions of any depth over + - * / (intervals and numbers), unary minus, abs, sqrt, square, reciprocal, pow, min, max, hull, intersect, widen; every operand evaluation order; every mode. Number operands are finite, exponents above INT_MIN.")
claim("C24", "proved", "C24_isotone C24_throws_below", "Same expressions; objects may be empty where the policy allows it.")
claim("C25", "partial", "C25_validity_partial C25_never_nan_partial C25_step_defined C25_infinite_number_refuted C25_bisect_refuted", "Invariant over arbitrary statement sequences (expressions, compound and plain assignment with aliasing, assign, set_empty, set_whole, bisect, fmod, nth_root; exceptions caught). False without the guards: infinite number operands and bisect of the whole line break it (refuted).")
claim("C45", "proved", "C45_constants C45_tight", "Every rounding mode at program start and at the call; float, double, long double and the generic constants for any format with at least 3 digits.")
claim("C46", "partial", "C46_values C46_values_opp_partial C46_empty_partial C46_opp_refuted C46_atanh_refuted",
  "Full with rounded_transc_std, except that atanh([1,1]) and atanh([-1,-1]) are neither empty nor an exception. With rounded_transc_opp only for exp, log, acos, cosh, asinh, atanh: the others are refuted (see C48). The math library is a hypothesis (lib_ok), met by a correctly rounded library (RefLib.v).")
claim("C47", "proved", "C47_cos_sin C47_tan", "Bounded and unbounded arguments of any size; two levels of recursion always suffice. cos and sin with both rounding classes; tan with rounded_transc_std (rounded_transc_opp: see C48). Math library hypothesis lib_ok.")
claim("C48", "partial", "C48_partial C48_refuted", "False for sin, tan, asin, atan, sinh, tanh, acosh on platforms without extended evaluation: the result exceeds f(x) at every argument whose value is not representable. True for the functions evaluated in the downward mode.")
claim("C50", "proved", "C50_binary C50_unary C50_pow C50_div_zero C50_div_zero_release",
  "Any base type that is an exact ordered field (exact_field, met by the rationals), default rounding policy. Division by an interval that contains zero raises the policy's exception with assertions on; in release builds [0,0] gives undefined behaviour of the base type (refuted part).")
claim("C51", "proved", "C51_operations C51_division_not_enclosing",
  "interval<int>: exact image set or undefined behaviour for + - unary minus * square abs; the negative half of the statement (division has no inclusion property for real quotients) is C51_division_not_enclosing; truncated quotients are C81.")

claim("C53", "partial", "C53_integers_partial C53_float_refuted",
  "Proved for |n| <= 2^precision (every 32-bit int for double and long double). False for larger integers: with float, 0 + 16777217 does not contain 16777217.")
claim("C54", "proved", "C54_directions C54_restores C54_restores_register C54_x87_words C54_library C54_programs C54_programs_library",
  "Every register value, every back end: GNU, Borland and Microsoft x86 (plain and fast), PowerPC, SPARC, Alpha; C library back ends for any distinct macro values. The processors and _control87 are modelled as their manuals describe them (HwControl.v, SpecHw.v).")
claim("C55", "proved", "C55_singletons C55_infinity C55_quiet_NaN",
  "The values of numeric_limits of the base type are parameters. signaling_NaN is misspelt (signaling_Nan) inside its body: a program that calls it does not compile.")
claim("C56", "proved", "C56_output C56_injective", "The printer of the base type is a parameter.")
claim("C57", "proved", "C57_horner C57_horner_unprotected")
claim("C58", "proved", "C58_newton_no_empty C58_newton_empty",
  "Both functions, inside a rounding object as in main(). fuel counts iterations of the while loop; the theorem gives a number of iterations that suffices. C58_unbounded_refuted shows that the bound on the argument cannot be dropped: on [0, +inf] both functions return nothing. Vector reallocation and memory exhaustion are not modelled.")
claim("C59", "proved", "C59_algo1_sign C59_algo1_triangular",
  "det is the Laplace expansion along the first column (Det.v), of the exact values of the entries.")
claim("C60", "partial", "C60_algo2_sign_partial C60_algo2_sign_refuted",
  "Proved when the approximate inverse computed in floating point is finite, in every rounding mode of the caller. False in general: when it overflows, the norms can be NaN, which the test ss >= 1 lets pass, and the function answers 1 for a matrix of negative determinant (C60_algo2_sign_refuted).")
claim("C61", "partial", "C61_find_zeros_partial C61_find_zeros2_partial C61_ends_refuted",
  "One variable: ranges with bounds of magnitude at most 2^32. Two variables: ranges inside [-40,40] (so that the int that counts iterations cannot overflow). False for larger ranges: beyond 2^33 neighbouring doubles are more than 1e-6 apart and the search never ends (C61_ends_refuted). The function is any interval function that encloses a relation between reals.")
claim("C62", "proved", "C62_program",
  "The C library is a hypothesis (lib_ok), the checking policy must allow empty intervals as checking_base does; output formatting is not modelled.")
claim("C63", "proved", "C63_commutative C63_neutral C63_negation C63_double C63_lattice",
  "Laws that regroup roundings do not hold and are not claimed: C63_add_associative_refuted and C63_subdistributive_refuted give doubles for which + is not associative and x*(y+z) is not inside x*y+x*z.")
claim("C64", "proved", "C64_fundamental C64_fundamental_opp",
  "C64_fundamental: rounded_transc_std, all fourteen functions. C64_fundamental_opp: rounded_transc_opp, the eight functions whose bounds it rounds outward (C46_opp_refuted shows that the others can fail). fuel bounds the recursion of cos and sin; 2 suffices.")
claim("C65", "partial", "C65_accepts C65_nan C65_rejects_partial C65_defined_refuted C65_round_trip C65_empty",
  "False as stated: on input that ends where a number must start (nothing but blanks, or [ and blanks) the function copies an uninitialised local variable (C65_defined_refuted); all other inputs are covered. The conversion of numbers is a parameter; streams are strings with skipws set; failbit and badbit are one flag.")
claim("C66", "proved", "C66_tightest C66_values C66_expressions C66_std_tightest C66_program",
  "MPFR is an abstract library (set_d, get_d, the functions); the hypothesis is that its functions and its conversion to double round correctly and that doubles convert to it exactly. Its memory is not modelled.")
claim("C67", "partial", "C67_isotone_partial C67_isotone_mpfr_partial C67_isotone_defined_partial C67_isotone_defined_mpfr_partial C67_reduction_refuted",
  "Proved for expressions without sin, cos, tan and atanh. False with sin, cos or tan (C67_reduction_refuted): for every correctly rounding library there are doubles near 2^13, 2^30 and 2^34 for which the smaller interval is reduced by one period more than the larger one, the rounded multiple of the period is less precise, and the result of the smaller interval sticks out. With atanh, which misses the emptiness of its result on [1,1] and [-1,-1], it is proved for expressions that have a value at some point of the smaller operands (C67_isotone_defined_partial).")
claim("C68", "partial", "C68_range C68_range_mpfr C68_tightest_partial C68_tightest_mpfr_partial C68_sin_tightest_refuted",
  "The range and the tightness of cos and tan on their first monotonic piece are proved. sin is not tightest (C68_sin_tightest_refuted): sin([0,0]) is computed as cos of an enclosure of -pi/2 and contains a positive number, for every correctly rounding library.")
claim("C69", "proved", "C69_exact C69_integers C69_pow_exact",
  "exact_set (ExprExact.v) is exact interval arithmetic on sets of reals; divisors that contain zero and negative exponents are excluded, they round twice or are not tightest (C05).")
claim("C70", "proved", "C70_binary C70_unary C70_pow C70_convergence",
  "pow rounds at every multiplication, so its error grows with the exponent (C70_pow); hull, intersect and widen are left out of C70_convergence (hull and widen do not converge), and so is pow with an exponent that is not positive (write 1 / pow). steady (ExprWidth.v) gives the constants; it refers to the library only to say in which range the values lie over the large box.")
claim("C71", "proved", "C71_precision C71_outcome",
  "retype (OpsWide.v) is the same expression with its numbers converted; conversions to a wider format keep the value (fconv_widen).")
claim("C72", "proved", "C72_search C72_search2 C72_search_transcendental C72_search2_transcendental C72_sine_zeros",
  "Ranges as in C61 (magnitude at most 2^32; within [-40,40] for two variables). With transcendental functions the C library is assumed to round correctly (lib_rounds, of which ref_lib is an instance) and the bound is the one of the error analysis cert of C75. C72_sine_zeros is the first function of the demonstration: all multiples of pi in the range are printed and every printed point is within 3e-6 of one.")
claim("C73", "partial", "C73_nth_root_accurate_partial C73_nth_root_inaccurate_refuted",
  "Proved for bounds b with b = 0 or n * max(|b|, 1/|b|) <= 2^(prec-10) (2^43 for double). False for larger magnitudes: nth_root of 5571554746792077 * 2^248 with degree 3 returns [1, 2.7e30], the iteration is stuck there (C73_nth_root_inaccurate_refuted).")
claim("C74", "proved", "C74_sin_cos_accurate C74_sin_cos_accurate_mpfr C74_tan_accurate",
  "Errors are absolute: for sin close to a multiple of pi they are not small relative to the value (C68_sin_tightest_refuted). Rounding errors of the library functions are excluded by lib_rounds, of which ref_lib is an instance.")
claim("C75", "proved", "C75_error_analysis C75_error_analysis_mpfr",
  "cert (RunErr.v) is the error analysis; it does not mention the library. hull and powers with an exponent that is not positive are left out. long double is left out because its constant pi has only the precision of double, so asin and acos are not tightest.")
claim("C76", "partial", "C76_inclusion_partial C76_library_policies C76_box C76_pow_refuted",
  "Inclusion from f_down <= f <= f_up alone, for every base type, policy and expression, is proved for everything but pow (C76_inclusion_partial), and for box arithmetic against the scalar program (C76_box). For pow it is false as documented: C76_pow_refuted gives a policy meeting the requirements for which pow([0,1],4) is [3,1]; pow is covered when products of nonnegative numbers are not rounded below 0 and products of numbers in [0,1] not above 1 (keeps_signs), which the library's policies satisfy (C76_library_policies). Divisions need a base type with infinities. sqrt bounds are required on [0,+inf]: the documentation only asks sqrt_up on ]0,+inf], but the code calls sqrt_up(0). Transcendental functions are the subject of C46-C48.")
claim("C77", "partial", "C77_domains C77_inclusion_partial C77_tan_partial C77_cos_refuted C77_sqrt_domain_refuted",
  "C77_domains: with the arithmetic of the library the fourteen functions only need bounds on the documented domains. With arithmetic that is only known to return bounds, C77_inclusion_partial covers all expressions with the functions other than sin, cos and tan, and C77_tan_partial covers tan when the number of periods is finite. False as documented for cos: with differences rounded down by 2 too much, cos([0,1]) does not contain cos 0, although cos_down and cos_up are right for all arguments (C77_cos_refuted). False for sqrt: an operand with upper bound 0 calls sqrt_up(0), outside of the documented domain (C77_sqrt_domain_refuted). Powers as in C76.")
claim("C78", "partial", "C78_origin C78_comparison_partial C78_floats C78_comparison_refuted",
  "The relation library (SpecFault.v) lists every modelled function except the comparison operators; C78_origin holds for all of them, C78_floats instantiates it. False as documented for the comparison operators of the default scheme: they throw comparison_error themselves (C78_comparison_refuted), and nothing else (C78_comparison_partial). pow and nth_root are covered for the int exponents that do not overflow (pow_arg, root_arg; see C12).")
claim("C79", "partial", "C79_default_complement C79_self_comparisons C79_singletons C79_not_singletons C79_square_is_product C79_max_apart C79_hull_union C79_std_max_partial C79_std_max_refuted C79_certain_self_refuted",
  "Two sentences of the documentation are false: with certain comparisons x != x is documented to be true unless x is a singleton, but it is never true (C79_certain_self_refuted); std::max throws exactly on overlap only up to a single common member (C79_std_max_refuted).")
claim("C80", "proved", "C80_ring C80_field C80_inclusion C80_identities_needed",
  "SpecOrdered.v states the documented laws and the ring (field) identities; nothing refers to the reals, and the theorems are axiom-free. The ring identities are implicit in the documentation; C80_identities_needed shows types with the five laws but without them for which + and * lose members. With assertions disabled a division by an interval containing zero has no infinity to return (C50), so C80_inclusion asks for assertions where an expression divides by an interval. Examples: dual numbers (not Archimedean) and the rationals.")
claim("C81", "proved", "C81_int_program C81_int_division C81_release_division_refuted C81_pow_overflow_refuted",
  "SpecInt.v runs expressions on 32-bit ints with truncating division. The two negative halves of the statement are the _refuted theorems. The powers a, a^2, ..., a^|n| are the steps of pow on ints.")
claim("C82", "partial", "C82_width C82_norm C82_median C82_bisect C82_median_defined_refuted C82_bisect_progress_partial C82_bisect_progress_refuted",
  "The last sentence is false of the code: one half of [0,1] is [0,1] (C82_bisect_progress_refuted); it holds when two ints lie further apart (C82_bisect_progress_partial). C82_median_defined_refuted shows that the condition on the sum is needed: the median of the singleton 2^30 overflows.")
claim("C83", "proved", "C83_round_trip C83_overflow_test C83_ten_thousand C83_few_refuted",
  "ExOverflow.v models test_one of test/overflow.cpp for any number of iterations (nb is 10000 there). C83_round_trip is the same with any two factors g and f of the same sign; C83_few_refuted is the last sentence of the statement.")
claim("C84", "proved", "C84_variants C84_det_test",
  "ExDet.v models test/det.cpp for any dimension and format, as a client program of Program.v. The model follows the code, which exchanges cells of one row where a row exchange was meant; the claim does not depend on it.")
claim("C85", "proved", "C85_float_program C85_error_bound C85_unary_test",
  "SpecBox.v evaluates an expression on numbers (each operation rounded to the evaluation format and then to T, in one mode). pow is left out, since the language has no operator for it; intersect and widen have no counterpart on numbers. C85_unary_test is the check of test/test_float.cpp for all intervals and numbers.")
claim("C86", "proved", "C86_fmod C86_fmod_number C86_number_fmod C86_no_overflow C86_negative_overflow_refuted C86_negative_divisor_refuted",
  "ExFmod.v models the rounding policy of test/fmod.cpp; the specification (floor of a quotient, a - n * v on ints, exact set on reals) is at the top of Properties46.v. The overflow condition is exact: undefined behaviour iff some a - n * v overflows. The last two theorems are the limits stated at the end of the property. C86_case is the nine calls of the test.")
claim("C87", "proved", "C87_binary_test C87_square_test C87_sqrt_test C87_sqrt_program C87_square_sqrt C87_sqrt_refuted C87_pi_test",
  "C87_sqrt_refuted shows the condition on a in the third sentence is needed. The generic constants (base types without constants of their own) are excluded in the last sentence, as in the test.")
claim("C88", "proved", "C88_neg C88_add C88_add_number C88_number_add C88_sub C88_sub_number C88_number_sub C88_add_assign C88_sub_assign C88_add_assign_number C88_sub_assign_number C88_test",
  "ExAdd.v models the formulas, their simplifying operators, the rounding control and the checking policy of the test. The meaning of a formula (ev, Properties48.v) is the specification. The rounding control of the test forgets the mode of the caller when a rounding object is created, so the mode after a call is always RND_M. C88_case shows two different formulas from the two policies.")
claim("C89", "proved", "C89_empty C89_nan C89_set_number C89_intervals C89_numbers C89_sets C89_sets_mixed C89_explicit C89_test_policy",
  "The specification is SpecOrder.v; C37-C40 are about floating-point numbers and the policies of the library, with real members. In namespace set <= and >= do not compile with two policies. The theorems need no axiom.")
claim("C90", "proved", "C90_in C90_zero_in C90_overlap C90_singleton C90_intersect C90_hull C90_hull_number C90_hull_numbers C90_max_min C90_max_min_number",
  "The specification is SpecOrder.v and the head of Properties50.v. What empty() does is up to the policy, so the empty results are stated as being the call of empty(). subset, proper_subset and equal are in C89_sets. The theorems need no axiom.")
claim("C91", "proved", "C91_rational",
  "ExRational.v models main. boost::rational<int> is modelled by the rationals of the Coq library: overflow of its numerators and denominators is not modelled.")
claim("C92", "proved", "C92_values C92_calls C92_members C92_invariant",
  "Conversions from another base type and arithmetic are not in the histories of this claim: they depend on the rounding policy, and C01, C02 and C30 are about them for floating-point numbers. m_set, set_whole and whole() are left out because the statement makes no demand on the infinite bounds of the policy. The theorems need no axiom.")
