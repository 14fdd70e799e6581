{
 "claims": [
  {
   "property": "C01",
   "status": "proved",
   "theorems": [
    "C01_add_tightest"
   ],
   "note": ""
  },
  {
   "property": "C02",
   "status": "proved",
   "theorems": [
    "C02_sub_tightest"
   ],
   "note": ""
  },
  {
   "property": "C03",
   "status": "proved",
   "theorems": [
    "C03_neg_exact"
   ],
   "note": ""
  },
  {
   "property": "C04",
   "status": "proved",
   "theorems": [
    "C04_mul_tightest"
   ],
   "note": ""
  },
  {
   "property": "C05",
   "status": "partial",
   "theorems": [
    "C05_div_encloses_partial",
    "C05_div_by_zero_empty",
    "C05_div_tightest_refuted"
   ],
   "note": "Inclusion is proved always, tightness except when the numerator is [a,0] with a < 0 and zero is a bound of the divisor (division_loses): [-1,0] / [0,3] gives the whole line (refuted). Division by [0,0] gives the empty interval."
  },
  {
   "property": "C06",
   "status": "proved",
   "theorems": [
    "C06_two_part_division",
    "C06_parts_sides",
    "C06_zero_divisor"
   ],
   "note": ""
  },
  {
   "property": "C07",
   "status": "proved",
   "theorems": [
    "C07_add",
    "C07_sub",
    "C07_mul",
    "C07_div",
    "C07_max_min_hull",
    "C07_fmod"
   ],
   "note": ""
  },
  {
   "property": "C08",
   "status": "partial",
   "theorems": [
    "C08_compound_interval",
    "C08_compound_number_partial",
    "C08_add_number_refuted"
   ],
   "note": "Everything proved except x += NaN on an empty x under checking_catch_nan, where the code behaves differently from x + NaN (refuted)."
  },
  {
   "property": "C09",
   "status": "proved",
   "theorems": [
    "C09_square_tightest",
    "C09_square_refines_product"
   ],
   "note": ""
  },
  {
   "property": "C10",
   "status": "proved",
   "theorems": [
    "C10_pow_positive_encloses",
    "C10_pow_negative_encloses",
    "C10_pow_negative_zero_empty"
   ],
   "note": ""
  },
  {
   "property": "C11",
   "status": "partial",
   "theorems": [
    "C11_pow_zero_is_one_partial",
    "C11_pow_zero_is_one_refuted"
   ],
   "note": "pow([0,0],0) is empty in the code; proved for every other valid interval."
  },
  {
   "property": "C12",
   "status": "partial",
   "theorems": [
    "C12_pow_total_partial",
    "C12_pow_total_refuted"
   ],
   "note": "pow(x, INT_MIN) negates INT_MIN (undefined); total for all other exponents."
  },
  {
   "property": "C13",
   "status": "proved",
   "theorems": [
    "C13_sqrt_tightest",
    "C13_sqrt_negative_empty"
   ],
   "note": ""
  },
  {
   "property": "C14",
   "status": "proved",
   "theorems": [
    "C14_inverse_tightest",
    "C14_inverse_zero_empty"
   ],
   "note": ""
  },
  {
   "property": "C15",
   "status": "proved",
   "theorems": [
    "C15_abs_exact",
    "C15_max_exact",
    "C15_min_exact",
    "C15_norm_least_upper_bound"
   ],
   "note": ""
  },
  {
   "property": "C16",
   "status": "partial",
   "theorems": [
    "C16_nth_root_encloses_partial",
    "C16_nth_root_negative_empty",
    "C16_nth_root_of_pow_partial",
    "C16_nth_root_no_empty_partial",
    "C16_nth_root_of_pow_no_empty_partial",
    "C16_nth_root_refuted",
    "C16_nth_root_infinite_refuted"
   ],
   "note": "Proved when the rounding mode is the one the policy assumes (always so under rounded_arith_std) and the degree is at most 2^precision: for all valid intervals under the checking policies that do not create empty intervals (the default one included), and under the others for finite bounds whose reciprocals do not overflow. Refuted under the defaults when called in round-to-nearest, and for infinite bounds under checking_base."
  },
  {
   "property": "C17",
   "status": "proved",
   "theorems": [
    "C17_nth_root_terminates",
    "C17_budget_irrelevant",
    "C17_loop_fixed_point"
   ],
   "note": ""
  },
  {
   "property": "C18",
   "status": "partial",
   "theorems": [
    "C18_mode_restored_partial",
    "C18_call_mode_restored_partial",
    "C18_mode_restored_refuted"
   ],
   "note": "Every program over every modelled call restores the mode; nth_root does not (refuted)."
  },
  {
   "property": "C19",
   "status": "partial",
   "theorems": [
    "C19_mode_independent_partial",
    "C19_nth_root_std_partial",
    "C19_mode_independent_refuted"
   ],
   "note": "Every modelled call but nth_root is independent of the ambient mode; nth_root under the default policy is not (refuted), under rounded_arith_std it is."
  },
  {
   "property": "C20",
   "status": "proved",
   "theorems": [
    "C20_std_opp_programs",
    "C20_std_opp_operations"
   ],
   "note": "Conversions from floating-point types; for integer sources see C31."
  },
  {
   "property": "C21",
   "status": "proved",
   "theorems": [
    "C21_order_independent",
    "C21_mode_independent",
    "C21_subexpressions"
   ],
   "note": ""
  },
  {
   "property": "C22",
   "status": "partial",
   "theorems": [
    "C22_unprotected_equals_protected_partial",
    "C22_unprotected_equals_protected_refuted"
   ],
   "note": "Proved for every program in which calls of fmod through the unprotected type have a non-empty result. False for fmod with an empty (NaN) result: the protected version converts it to the canonical empty interval, the unprotected one does not."
  },
  {
   "property": "C23",
   "status": "proved",
   "theorems": [
    "C23_fundamental"
   ],
   "note": "Expressions of any depth over + - * / (intervals and numbers), unary minus, abs, sqrt, square, reciprocal, pow, min, max, hull, intersect, widen; every operand evaluation order; every mode. Number operands are finite, exponents above INT_MIN."
  },
  {
   "property": "C24",
   "status": "proved",
   "theorems": [
    "C24_isotone",
    "C24_throws_below"
   ],
   "note": "Same expressions; objects may be empty where the policy allows it."
  },
  {
   "property": "C25",
   "status": "partial",
   "theorems": [
    "C25_validity_partial",
    "C25_never_nan_partial",
    "C25_step_defined",
    "C25_infinite_number_refuted",
    "C25_bisect_refuted"
   ],
   "note": "Invariant over arbitrary statement sequences (expressions, compound and plain assignment with aliasing, assign, set_empty, set_whole, bisect, fmod, nth_root; exceptions caught). False without the guards: infinite number operands and bisect of the whole line break it (refuted)."
  },
  {
   "property": "C26",
   "status": "proved",
   "theorems": [
    "C26_empty_propagates",
    "C26_nth_root"
   ],
   "note": "Every call of the API table (Program.v) plus nth_root. Comparison operators throw. Number arguments are not NaN (see C28)."
  },
  {
   "property": "C27",
   "status": "proved",
   "theorems": [
    "C27_no_empty"
   ],
   "note": "Number operands finite, widen by a nonnegative number."
  },
  {
   "property": "C28",
   "status": "proved",
   "theorems": [
    "C28_reported_operators",
    "C28_reported_hull",
    "C28_reported_constructors",
    "C28_caught",
    "C28_caught_after_empty",
    "C28_not_nan",
    "C28_assign_nan"
   ],
   "note": "Under checking_catch_nan an operator whose interval operand comes first and is already empty returns empty before looking at the number (C28_caught_after_empty); in every other case it throws."
  },
  {
   "property": "C29",
   "status": "partial",
   "theorems": [
    "C29_default",
    "C29_number",
    "C29_pair",
    "C29_pair_set",
    "C29_pair_unordered",
    "C29_from_float",
    "C29_from_float_pair",
    "C29_from_float_pair_unordered",
    "C29_copy",
    "C29_from_policy",
    "C29_from_policy_empty",
    "C29_from_interval",
    "C29_from_interval_empty",
    "C29_assign_number",
    "C29_assign_converted",
    "C29_assign_copy",
    "C29_assign_policy",
    "C29_assign_interval",
    "C29_mixed_pair",
    "C29_mixed_signs_refuted"
   ],
   "note": "All constructors and assignments. The constructor from two numbers of different types is proved when operator<= on the source types is the order of their values; refuted for a signed and an unsigned integer."
  },
  {
   "property": "C30",
   "status": "partial",
   "theorems": [
    "C30_assign_partial",
    "C30_assign_unordered",
    "C30_assign_refuted"
   ],
   "note": "x.assign(a, x.lower()) reads the bound after it was overwritten (refuted); all other aliasings proved."
  },
  {
   "property": "C31",
   "status": "partial",
   "theorems": [
    "C31_signed_partial",
    "C31_signed_pair_partial",
    "C31_signed_exact_partial",
    "C31_unsigned_partial",
    "C31_unsigned_opp_partial",
    "C31_narrow_partial",
    "C31_unsigned_pair_partial",
    "C31_unsigned_opp_pair_partial",
    "C31_unsigned_refuted",
    "C31_least_refuted"
   ],
   "note": "Enclosure for signed integers other than the least one, for all types narrower than int and, under rounded_arith_std, for unsigned ones. Under rounded_arith_opp an unsigned v gives the enclosure of [v-2^w, v], and the least signed integer is undefined behaviour."
  },
  {
   "property": "C32",
   "status": "proved",
   "theorems": [
    "C32_empty",
    "C32_in",
    "C32_in_infinite",
    "C32_in_nan",
    "C32_zero_in",
    "C32_subset",
    "C32_proper_subset",
    "C32_overlap",
    "C32_singleton",
    "C32_equal",
    "C32_intersect",
    "C32_hull",
    "C32_hull_numbers",
    "C32_mixed",
    "C32_accessors"
   ],
   "note": ""
  },
  {
   "property": "C33",
   "status": "proved",
   "theorems": [
    "C33_width_least_upper_bound",
    "C33_width_empty"
   ],
   "note": ""
  },
  {
   "property": "C34",
   "status": "partial",
   "theorems": [
    "C34_median_partial",
    "C34_median_inside_wide",
    "C34_median_unbounded",
    "C34_median_refuted"
   ],
   "note": "lower+upper may overflow (refuted); proved whenever the sum is in range or is evaluated in a format with a wider exponent range."
  },
  {
   "property": "C35",
   "status": "partial",
   "theorems": [
    "C35_bisect_covers_partial",
    "C35_bisect_partial",
    "C35_bisect_refuted"
   ],
   "note": "Coverage for every valid interval but the whole line; exact split into two valid halves when lower+upper does not overflow; refuted for the whole line."
  },
  {
   "property": "C36",
   "status": "proved",
   "theorems": [
    "C36_widen_tightest"
   ],
   "note": ""
  },
  {
   "property": "C37",
   "status": "proved",
   "theorems": [
    "C37_default_three_way",
    "C37_default_empty_throws",
    "C37_default_number_three_way",
    "C37_default_infinite_number_sound",
    "C37_default_nan_throws"
   ],
   "note": "Every relation, operand policies may differ; interval-interval and interval-number. For an infinite number the answer, when one is given, is right for every member; a NaN number always throws."
  },
  {
   "property": "C38",
   "status": "proved",
   "theorems": [
    "C38_certain_all",
    "C38_possible_some",
    "C38_certain_number",
    "C38_possible_number",
    "C38_dual",
    "C38_empty_throws",
    "C38_infinite_number_sound",
    "C38_nan_number"
   ],
   "note": "For an infinite number the answers certain and not possible are right for every member. A NaN is reported by the checking policies that look for it; the others answer that nothing is certain and only != is possible."
  },
  {
   "property": "C39",
   "status": "proved",
   "theorems": [
    "C39_tribool",
    "C39_tribool_number",
    "C39_tribool_empty_throws",
    "C39_infinite_number_sound",
    "C39_nan_number"
   ],
   "note": "For an infinite number a definite answer is right for every member; a NaN is reported or gives the indeterminate answer."
  },
  {
   "property": "C40",
   "status": "proved",
   "theorems": [
    "C40_lexicographic_meaning",
    "C40_total_order",
    "C40_number_as_singleton",
    "C40_infinite_number",
    "C40_nan_number",
    "C40_empty_throws"
   ],
   "note": "Antisymmetry is up to equality of bounds as numbers (signed zeros identified)."
  },
  {
   "property": "C41",
   "status": "proved",
   "theorems": [
    "C41_set_inclusion",
    "C41_empty_least",
    "C41_number_throws",
    "C41_mixed"
   ],
   "note": "With two different policies (C41_mixed) only <, >, == and != exist: <= and >= call subset, which takes one policy."
  },
  {
   "property": "C42",
   "status": "proved",
   "theorems": [
    "C42_explicit",
    "C42_explicit_number",
    "C42_forms_agree",
    "C42_infinite_number_sound",
    "C42_nan_number"
   ],
   "note": ""
  },
  {
   "property": "C43",
   "status": "partial",
   "theorems": [
    "C43_fmod_partial",
    "C43_fmod_numbers_partial",
    "C43_fmod_reduced",
    "C43_refuted"
   ],
   "note": "Proved whenever no quotient r/s is below minus the largest finite number; beyond it the integer overflows to -inf and the result has no member (refuted)."
  },
  {
   "property": "C44",
   "status": "partial",
   "theorems": [
    "C44_fmod_below_modulus_partial",
    "C44_refuted"
   ],
   "note": "Proved when the quotients are at most 2^precision; refuted beyond."
  },
  {
   "property": "C45",
   "status": "proved",
   "theorems": [
    "C45_constants",
    "C45_tight"
   ],
   "note": "Every rounding mode at program start and at the call; float, double, long double and the generic constants for any format with at least 3 digits."
  },
  {
   "property": "C46",
   "status": "partial",
   "theorems": [
    "C46_values",
    "C46_values_opp_partial",
    "C46_empty_partial",
    "C46_opp_refuted",
    "C46_atanh_refuted"
   ],
   "note": "Full with rounded_transc_std, except that atanh([1,1]) and atanh([-1,-1]) are neither empty nor an exception. With rounded_transc_opp only for exp, log, acos, cosh, asinh, atanh: the others are refuted (see C48). The math library is a hypothesis (lib_ok), met by a correctly rounded library (RefLib.v)."
  },
  {
   "property": "C47",
   "status": "proved",
   "theorems": [
    "C47_cos_sin",
    "C47_tan"
   ],
   "note": "Bounded and unbounded arguments of any size; two levels of recursion always suffice. cos and sin with both rounding classes; tan with rounded_transc_std (rounded_transc_opp: see C48). Math library hypothesis lib_ok."
  },
  {
   "property": "C48",
   "status": "partial",
   "theorems": [
    "C48_partial",
    "C48_refuted"
   ],
   "note": "False for sin, tan, asin, atan, sinh, tanh, acosh on platforms without extended evaluation: the result exceeds f(x) at every argument whose value is not representable. True for the functions evaluated in the downward mode."
  },
  {
   "property": "C49",
   "status": "proved",
   "theorems": [
    "C49_wide_evaluation_directed"
   ],
   "note": ""
  },
  {
   "property": "C50",
   "status": "proved",
   "theorems": [
    "C50_binary",
    "C50_unary",
    "C50_pow",
    "C50_div_zero",
    "C50_div_zero_release"
   ],
   "note": "Any base type that is an exact ordered field (exact_field, met by the rationals), default rounding policy. Division by an interval that contains zero raises the policy's exception with assertions on; in release builds [0,0] gives undefined behaviour of the base type (refuted part)."
  },
  {
   "property": "C51",
   "status": "proved",
   "theorems": [
    "C51_operations",
    "C51_division_not_enclosing"
   ],
   "note": "interval<int>: exact image set or undefined behaviour for + - unary minus * square abs; the negative half of the statement (division has no inclusion property for real quotients) is C51_division_not_enclosing; truncated quotients are C81."
  },
  {
   "property": "C52",
   "status": "proved",
   "theorems": [
    "C52_number_functions_tightest"
   ],
   "note": ""
  },
  {
   "property": "C53",
   "status": "partial",
   "theorems": [
    "C53_integers_partial",
    "C53_float_refuted"
   ],
   "note": "Proved for |n| <= 2^precision (every 32-bit int for double and long double). False for larger integers: with float, 0 + 16777217 does not contain 16777217."
  },
  {
   "property": "C54",
   "status": "proved",
   "theorems": [
    "C54_directions",
    "C54_restores",
    "C54_restores_register",
    "C54_x87_words",
    "C54_library",
    "C54_programs",
    "C54_programs_library"
   ],
   "note": "Every register value, every back end: GNU, Borland and Microsoft x86 (plain and fast), PowerPC, SPARC, Alpha; C library back ends for any distinct macro values. The processors and _control87 are modelled as their manuals describe them (HwControl.v, SpecHw.v)."
  },
  {
   "property": "C55",
   "status": "proved",
   "theorems": [
    "C55_singletons",
    "C55_infinity",
    "C55_quiet_NaN"
   ],
   "note": "The values of numeric_limits of the base type are parameters. signaling_NaN is misspelt (signaling_Nan) inside its body: a program that calls it does not compile."
  },
  {
   "property": "C56",
   "status": "proved",
   "theorems": [
    "C56_output",
    "C56_injective"
   ],
   "note": "The printer of the base type is a parameter."
  },
  {
   "property": "C57",
   "status": "proved",
   "theorems": [
    "C57_horner",
    "C57_horner_unprotected"
   ],
   "note": ""
  },
  {
   "property": "C58",
   "status": "proved",
   "theorems": [
    "C58_newton_no_empty",
    "C58_newton_empty"
   ],
   "note": "Both functions, inside a rounding object as in main(). fuel counts iterations of the while loop; the theorem gives a number of iterations that suffices. C58_unbounded_refuted shows that the bound on the argument cannot be dropped: on [0, +inf] both functions return nothing. Vector reallocation and memory exhaustion are not modelled."
  },
  {
   "property": "C59",
   "status": "proved",
   "theorems": [
    "C59_algo1_sign",
    "C59_algo1_triangular"
   ],
   "note": "det is the Laplace expansion along the first column (Det.v), of the exact values of the entries."
  },
  {
   "property": "C60",
   "status": "partial",
   "theorems": [
    "C60_algo2_sign_partial",
    "C60_algo2_sign_refuted"
   ],
   "note": "Proved when the approximate inverse computed in floating point is finite, in every rounding mode of the caller. False in general: when it overflows, the norms can be NaN, which the test ss >= 1 lets pass, and the function answers 1 for a matrix of negative determinant (C60_algo2_sign_refuted)."
  },
  {
   "property": "C61",
   "status": "partial",
   "theorems": [
    "C61_find_zeros_partial",
    "C61_find_zeros2_partial",
    "C61_ends_refuted"
   ],
   "note": "One variable: ranges with bounds of magnitude at most 2^32. Two variables: ranges inside [-40,40] (so that the int that counts iterations cannot overflow). False for larger ranges: beyond 2^33 neighbouring doubles are more than 1e-6 apart and the search never ends (C61_ends_refuted). The function is any interval function that encloses a relation between reals."
  },
  {
   "property": "C62",
   "status": "proved",
   "theorems": [
    "C62_program"
   ],
   "note": "The C library is a hypothesis (lib_ok), the checking policy must allow empty intervals as checking_base does; output formatting is not modelled."
  },
  {
   "property": "C63",
   "status": "proved",
   "theorems": [
    "C63_commutative",
    "C63_neutral",
    "C63_negation",
    "C63_double",
    "C63_lattice"
   ],
   "note": "Laws that regroup roundings do not hold and are not claimed: C63_add_associative_refuted and C63_subdistributive_refuted give doubles for which + is not associative and x*(y+z) is not inside x*y+x*z."
  },
  {
   "property": "C64",
   "status": "proved",
   "theorems": [
    "C64_fundamental",
    "C64_fundamental_opp"
   ],
   "note": "C64_fundamental: rounded_transc_std, all fourteen functions. C64_fundamental_opp: rounded_transc_opp, the eight functions whose bounds it rounds outward (C46_opp_refuted shows that the others can fail). fuel bounds the recursion of cos and sin; 2 suffices."
  },
  {
   "property": "C65",
   "status": "partial",
   "theorems": [
    "C65_accepts",
    "C65_nan",
    "C65_rejects_partial",
    "C65_defined_refuted",
    "C65_round_trip",
    "C65_empty"
   ],
   "note": "False as stated: on input that ends where a number must start (nothing but blanks, or [ and blanks) the function copies an uninitialised local variable (C65_defined_refuted); all other inputs are covered. The conversion of numbers is a parameter; streams are strings with skipws set; failbit and badbit are one flag."
  },
  {
   "property": "C66",
   "status": "proved",
   "theorems": [
    "C66_tightest",
    "C66_values",
    "C66_expressions",
    "C66_std_tightest",
    "C66_program"
   ],
   "note": "MPFR is an abstract library (set_d, get_d, the functions); the hypothesis is that its functions and its conversion to double round correctly and that doubles convert to it exactly. Its memory is not modelled."
  },
  {
   "property": "C67",
   "status": "partial",
   "theorems": [
    "C67_isotone_partial",
    "C67_isotone_mpfr_partial",
    "C67_isotone_defined_partial",
    "C67_isotone_defined_mpfr_partial",
    "C67_reduction_refuted"
   ],
   "note": "Proved for expressions without sin, cos, tan and atanh. False with sin, cos or tan (C67_reduction_refuted): for every correctly rounding library there are doubles near 2^13, 2^30 and 2^34 for which the smaller interval is reduced by one period more than the larger one, the rounded multiple of the period is less precise, and the result of the smaller interval sticks out. With atanh, which misses the emptiness of its result on [1,1] and [-1,-1], it is proved for expressions that have a value at some point of the smaller operands (C67_isotone_defined_partial)."
  },
  {
   "property": "C68",
   "status": "partial",
   "theorems": [
    "C68_range",
    "C68_range_mpfr",
    "C68_tightest_partial",
    "C68_tightest_mpfr_partial",
    "C68_sin_tightest_refuted"
   ],
   "note": "The range and the tightness of cos and tan on their first monotonic piece are proved. sin is not tightest (C68_sin_tightest_refuted): sin([0,0]) is computed as cos of an enclosure of -pi/2 and contains a positive number, for every correctly rounding library."
  },
  {
   "property": "C69",
   "status": "proved",
   "theorems": [
    "C69_exact",
    "C69_integers",
    "C69_pow_exact"
   ],
   "note": "exact_set (ExprExact.v) is exact interval arithmetic on sets of reals; divisors that contain zero and negative exponents are excluded, they round twice or are not tightest (C05)."
  },
  {
   "property": "C70",
   "status": "proved",
   "theorems": [
    "C70_binary",
    "C70_unary",
    "C70_pow",
    "C70_convergence"
   ],
   "note": "pow rounds at every multiplication, so its error grows with the exponent (C70_pow); hull, intersect and widen are left out of C70_convergence (hull and widen do not converge), and so is pow with an exponent that is not positive (write 1 / pow). steady (ExprWidth.v) gives the constants; it refers to the library only to say in which range the values lie over the large box."
  },
  {
   "property": "C71",
   "status": "proved",
   "theorems": [
    "C71_precision",
    "C71_outcome"
   ],
   "note": "retype (OpsWide.v) is the same expression with its numbers converted; conversions to a wider format keep the value (fconv_widen)."
  },
  {
   "property": "C72",
   "status": "proved",
   "theorems": [
    "C72_search",
    "C72_search2",
    "C72_search_transcendental",
    "C72_search2_transcendental",
    "C72_sine_zeros"
   ],
   "note": "Ranges as in C61 (magnitude at most 2^32; within [-40,40] for two variables). With transcendental functions the C library is assumed to round correctly (lib_rounds, of which ref_lib is an instance) and the bound is the one of the error analysis cert of C75. C72_sine_zeros is the first function of the demonstration: all multiples of pi in the range are printed and every printed point is within 3e-6 of one."
  },
  {
   "property": "C73",
   "status": "partial",
   "theorems": [
    "C73_nth_root_accurate_partial",
    "C73_nth_root_inaccurate_refuted"
   ],
   "note": "Proved for bounds b with b = 0 or n * max(|b|, 1/|b|) <= 2^(prec-10) (2^43 for double). False for larger magnitudes: nth_root of 5571554746792077 * 2^248 with degree 3 returns [1, 2.7e30], the iteration is stuck there (C73_nth_root_inaccurate_refuted)."
  },
  {
   "property": "C74",
   "status": "proved",
   "theorems": [
    "C74_sin_cos_accurate",
    "C74_sin_cos_accurate_mpfr",
    "C74_tan_accurate"
   ],
   "note": "Errors are absolute: for sin close to a multiple of pi they are not small relative to the value (C68_sin_tightest_refuted). Rounding errors of the library functions are excluded by lib_rounds, of which ref_lib is an instance."
  },
  {
   "property": "C75",
   "status": "proved",
   "theorems": [
    "C75_error_analysis",
    "C75_error_analysis_mpfr"
   ],
   "note": "cert (RunErr.v) is the error analysis; it does not mention the library. hull and powers with an exponent that is not positive are left out. long double is left out because its constant pi has only the precision of double, so asin and acos are not tightest."
  },
  {
   "property": "C76",
   "status": "partial",
   "theorems": [
    "C76_inclusion_partial",
    "C76_library_policies",
    "C76_box",
    "C76_pow_refuted"
   ],
   "note": "Inclusion from f_down <= f <= f_up alone, for every base type, policy and expression, is proved for everything but pow (C76_inclusion_partial), and for box arithmetic against the scalar program (C76_box). For pow it is false as documented: C76_pow_refuted gives a policy meeting the requirements for which pow([0,1],4) is [3,1]; pow is covered when products of nonnegative numbers are not rounded below 0 and products of numbers in [0,1] not above 1 (keeps_signs), which the library's policies satisfy (C76_library_policies). Divisions need a base type with infinities. sqrt bounds are required on [0,+inf]: the documentation only asks sqrt_up on ]0,+inf], but the code calls sqrt_up(0). Transcendental functions are the subject of C46-C48."
  },
  {
   "property": "C77",
   "status": "partial",
   "theorems": [
    "C77_domains",
    "C77_inclusion_partial",
    "C77_tan_partial",
    "C77_cos_refuted",
    "C77_sqrt_domain_refuted"
   ],
   "note": "C77_domains: with the arithmetic of the library the fourteen functions only need bounds on the documented domains. With arithmetic that is only known to return bounds, C77_inclusion_partial covers all expressions with the functions other than sin, cos and tan, and C77_tan_partial covers tan when the number of periods is finite. False as documented for cos: with differences rounded down by 2 too much, cos([0,1]) does not contain cos 0, although cos_down and cos_up are right for all arguments (C77_cos_refuted). False for sqrt: an operand with upper bound 0 calls sqrt_up(0), outside of the documented domain (C77_sqrt_domain_refuted). Powers as in C76."
  },
  {
   "property": "C78",
   "status": "partial",
   "theorems": [
    "C78_origin",
    "C78_comparison_partial",
    "C78_floats",
    "C78_comparison_refuted"
   ],
   "note": "The relation library (SpecFault.v) lists every modelled function except the comparison operators; C78_origin holds for all of them, C78_floats instantiates it. False as documented for the comparison operators of the default scheme: they throw comparison_error themselves (C78_comparison_refuted), and nothing else (C78_comparison_partial). pow and nth_root are covered for the int exponents that do not overflow (pow_arg, root_arg; see C12)."
  },
  {
   "property": "C79",
   "status": "partial",
   "theorems": [
    "C79_default_complement",
    "C79_self_comparisons",
    "C79_singletons",
    "C79_not_singletons",
    "C79_square_is_product",
    "C79_max_apart",
    "C79_hull_union",
    "C79_std_max_partial",
    "C79_std_max_refuted",
    "C79_certain_self_refuted"
   ],
   "note": "Two sentences of the documentation are false: with certain comparisons x != x is documented to be true unless x is a singleton, but it is never true (C79_certain_self_refuted); std::max throws exactly on overlap only up to a single common member (C79_std_max_refuted)."
  },
  {
   "property": "C80",
   "status": "proved",
   "theorems": [
    "C80_ring",
    "C80_field",
    "C80_inclusion",
    "C80_identities_needed"
   ],
   "note": "SpecOrdered.v states the documented laws and the ring (field) identities; nothing refers to the reals, and the theorems are axiom-free. The ring identities are implicit in the documentation; C80_identities_needed shows types with the five laws but without them for which + and * lose members. With assertions disabled a division by an interval containing zero has no infinity to return (C50), so C80_inclusion asks for assertions where an expression divides by an interval. Examples: dual numbers (not Archimedean) and the rationals."
  },
  {
   "property": "C81",
   "status": "proved",
   "theorems": [
    "C81_int_program",
    "C81_int_division",
    "C81_release_division_refuted",
    "C81_pow_overflow_refuted"
   ],
   "note": "SpecInt.v runs expressions on 32-bit ints with truncating division. The two negative halves of the statement are the _refuted theorems. The powers a, a^2, ..., a^|n| are the steps of pow on ints."
  },
  {
   "property": "C82",
   "status": "partial",
   "theorems": [
    "C82_width",
    "C82_norm",
    "C82_median",
    "C82_bisect",
    "C82_median_defined_refuted",
    "C82_bisect_progress_partial",
    "C82_bisect_progress_refuted"
   ],
   "note": "The last sentence is false of the code: one half of [0,1] is [0,1] (C82_bisect_progress_refuted); it holds when two ints lie further apart (C82_bisect_progress_partial). C82_median_defined_refuted shows that the condition on the sum is needed: the median of the singleton 2^30 overflows."
  },
  {
   "property": "C83",
   "status": "proved",
   "theorems": [
    "C83_round_trip",
    "C83_overflow_test",
    "C83_ten_thousand",
    "C83_few_refuted"
   ],
   "note": "ExOverflow.v models test_one of test/overflow.cpp for any number of iterations (nb is 10000 there). C83_round_trip is the same with any two factors g and f of the same sign; C83_few_refuted is the last sentence of the statement."
  },
  {
   "property": "C84",
   "status": "proved",
   "theorems": [
    "C84_variants",
    "C84_det_test"
   ],
   "note": "ExDet.v models test/det.cpp for any dimension and format, as a client program of Program.v. The model follows the code, which exchanges cells of one row where a row exchange was meant; the claim does not depend on it."
  },
  {
   "property": "C85",
   "status": "proved",
   "theorems": [
    "C85_float_program",
    "C85_error_bound",
    "C85_unary_test"
   ],
   "note": "SpecBox.v evaluates an expression on numbers (each operation rounded to the evaluation format and then to T, in one mode). pow is left out, since the language has no operator for it; intersect and widen have no counterpart on numbers. C85_unary_test is the check of test/test_float.cpp for all intervals and numbers."
  },
  {
   "property": "C86",
   "status": "proved",
   "theorems": [
    "C86_fmod",
    "C86_fmod_number",
    "C86_number_fmod",
    "C86_no_overflow",
    "C86_negative_overflow_refuted",
    "C86_negative_divisor_refuted"
   ],
   "note": "ExFmod.v models the rounding policy of test/fmod.cpp; the specification (floor of a quotient, a - n * v on ints, exact set on reals) is at the top of Properties46.v. The overflow condition is exact: undefined behaviour iff some a - n * v overflows. The last two theorems are the limits stated at the end of the property. C86_case is the nine calls of the test."
  },
  {
   "property": "C87",
   "status": "proved",
   "theorems": [
    "C87_binary_test",
    "C87_square_test",
    "C87_sqrt_test",
    "C87_sqrt_program",
    "C87_square_sqrt",
    "C87_sqrt_refuted",
    "C87_pi_test"
   ],
   "note": "C87_sqrt_refuted shows the condition on a in the third sentence is needed. The generic constants (base types without constants of their own) are excluded in the last sentence, as in the test."
  },
  {
   "property": "C88",
   "status": "proved",
   "theorems": [
    "C88_neg",
    "C88_add",
    "C88_add_number",
    "C88_number_add",
    "C88_sub",
    "C88_sub_number",
    "C88_number_sub",
    "C88_add_assign",
    "C88_sub_assign",
    "C88_add_assign_number",
    "C88_sub_assign_number",
    "C88_test"
   ],
   "note": "ExAdd.v models the formulas, their simplifying operators, the rounding control and the checking policy of the test. The meaning of a formula (ev, Properties48.v) is the specification. The rounding control of the test forgets the mode of the caller when a rounding object is created, so the mode after a call is always RND_M. C88_case shows two different formulas from the two policies."
  },
  {
   "property": "C89",
   "status": "proved",
   "theorems": [
    "C89_empty",
    "C89_nan",
    "C89_set_number",
    "C89_intervals",
    "C89_numbers",
    "C89_sets",
    "C89_sets_mixed",
    "C89_explicit",
    "C89_test_policy"
   ],
   "note": "The specification is SpecOrder.v; C37-C40 are about floating-point numbers and the policies of the library, with real members. In namespace set <= and >= do not compile with two policies. The theorems need no axiom."
  },
  {
   "property": "C90",
   "status": "proved",
   "theorems": [
    "C90_in",
    "C90_zero_in",
    "C90_overlap",
    "C90_singleton",
    "C90_intersect",
    "C90_hull",
    "C90_hull_number",
    "C90_hull_numbers",
    "C90_max_min",
    "C90_max_min_number"
   ],
   "note": "The specification is SpecOrder.v and the head of Properties50.v. What empty() does is up to the policy, so the empty results are stated as being the call of empty(). subset, proper_subset and equal are in C89_sets. The theorems need no axiom."
  },
  {
   "property": "C91",
   "status": "proved",
   "theorems": [
    "C91_rational"
   ],
   "note": "ExRational.v models main. boost::rational<int> is modelled by the rationals of the Coq library: overflow of its numerators and denominators is not modelled."
  },
  {
   "property": "C92",
   "status": "proved",
   "theorems": [
    "C92_values",
    "C92_calls",
    "C92_members",
    "C92_invariant"
   ],
   "note": "Conversions from another base type and arithmetic are not in the histories of this claim: they depend on the rounding policy, and C01, C02 and C30 are about them for floating-point numbers. m_set, set_whole and whole() are left out because the statement makes no demand on the infinite bounds of the policy. The theorems need no axiom."
  }
 ]
}