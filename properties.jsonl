{"id": "C01", "title": "Addition is the tightest enclosure", "statement": "For valid intervals x and y, x + y returns normally and is the smallest interval with representable bounds containing every real sum r+s with r in x and s in y; the rounding mode seen by the caller is unchanged.", "quantifier": "all IEEE-style binary formats (any precision/exponent range), both directed-rounding policies (std and opp), every documented checking policy, every rounding mode in force at the call, every argument evaluation order, every pair of valid intervals including unbounded ones, subnormals and overflow", "why_tests_cant": "Floating-point bounds are 2^128 input combinations per format and the failure cases (subnormal, overflow, infinite bounds, mode left over from elsewhere) are measure-zero.", "anchors": ["include/boost/numeric/interval/arith.hpp: operator+(interval,interval), operator+=", "include/boost/numeric/interval/rounded_arith.hpp: add_down/add_up", "include/boost/numeric/interval/rounding.hpp: save_state"]}
{"id": "C02", "title": "Subtraction is the tightest enclosure", "statement": "For valid intervals x and y, x - y returns normally and is the smallest representable interval containing every r-s with r in x, s in y; the caller's rounding mode is unchanged.", "quantifier": "all IEEE-style binary formats (any precision/exponent range), both directed-rounding policies (std and opp), every documented checking policy, every rounding mode in force at the call, every argument evaluation order, every pair of valid intervals including unbounded ones, subnormals and overflow", "why_tests_cant": "Same unbounded input space as addition; a swapped bound is invisible on singletons and symmetric samples.", "anchors": ["include/boost/numeric/interval/arith.hpp: operator-(interval,interval), operator-=", "include/boost/numeric/interval/rounded_arith.hpp: sub_down/sub_up"]}
{"id": "C03", "title": "Unary minus is exact", "statement": "For a valid interval x, -x is exactly the set of opposites {-r | r in x}: no rounding, no widening.", "quantifier": "all formats, checking policies, rounding modes and valid intervals", "why_tests_cant": "Exactness for all representable bounds cannot be sampled.", "anchors": ["include/boost/numeric/interval/arith.hpp: operator-(interval)"]}
{"id": "C04", "title": "Multiplication is the tightest enclosure", "statement": "For valid intervals x and y of any signs, x * y returns normally and is the smallest representable interval containing every product r*s with r in x, s in y, including zero and infinite bounds (no NaN bound ever appears).", "quantifier": "all IEEE-style binary formats (any precision/exponent range), both directed-rounding policies (std and opp), every documented checking policy, every rounding mode in force at the call, every argument evaluation order, every pair of valid intervals including unbounded ones, subnormals and overflow and all nine sign classes", "why_tests_cant": "Nine sign classes times zero/infinite bounds times rounding; a wrong corner is often masked by rounding or by symmetric operands.", "anchors": ["include/boost/numeric/interval/arith.hpp: operator*(interval,interval)", "include/boost/numeric/interval/rounded_arith.hpp: mul_down/mul_up"]}
{"id": "C05", "title": "Division is the tightest enclosure, including divisors containing zero", "statement": "For valid x and y with y not {0}, x / y returns normally and is the smallest representable interval containing every quotient r/s with r in x, s in y, s nonzero. If y is {0} the result is the empty interval (or the checking policy's exception).", "quantifier": "all IEEE-style binary formats (any precision/exponent range), both directed-rounding policies (std and opp), every documented checking policy, every rounding mode in force at the call, every argument evaluation order, every pair of valid intervals including unbounded ones, subnormals and overflow; all positions of zero relative to x and y", "why_tests_cant": "The case split over signs and zeros plus infinite bounds is too wide, and a looser but sound answer is not visible to inclusion tests.", "anchors": ["include/boost/numeric/interval/arith.hpp: operator/(interval,interval)", "include/boost/numeric/interval/detail/division.hpp"]}
{"id": "C06", "title": "Two-part division covers exactly the quotient set", "statement": "division_part1(x,y,b) followed, when b is true, by division_part2(x,y,b) returns intervals whose union contains every quotient r/s (s nonzero); when b is false the first part alone contains all quotients, part 2 is then empty; when b is true the first part is the tightest enclosure of the quotients by negative or positive s respectively and lies entirely at or below zero while the second lies at or above zero.", "quantifier": "all IEEE-style binary formats (any precision/exponent range), both directed-rounding policies (std and opp), every documented checking policy, every rounding mode in force at the call, every argument evaluation order, every pair of valid intervals including unbounded ones, subnormals and overflow", "why_tests_cant": "Lost quotients only appear for particular sign combinations and boundary values.", "anchors": ["include/boost/numeric/interval/arith2.hpp: division_part1, division_part2", "include/boost/numeric/interval/detail/division.hpp: div_zero_part1, div_zero_part2"]}
{"id": "C07", "title": "Mixed number/interval operators equal converting the number first", "statement": "For a finite number v and valid interval y, v+y, y+v, v-y, y-v, v*y, y*v, v/y, y/v, and the number overloads of min, max, hull, fmod denote the same set as the interval/interval operator applied to the singleton [v,v].", "quantifier": "all formats, policies, modes, all finite v and valid y", "why_tests_cant": "Each overload is separate code with its own case split; agreement must hold for every value.", "anchors": ["include/boost/numeric/interval/arith.hpp: number overloads", "include/boost/numeric/interval/utility.hpp: number overloads", "doc/interval.htm: Operators"]}
{"id": "C08", "title": "Compound assignment is x = x op y and is exception safe under aliasing", "statement": "x op= y leaves in x exactly the result of x op y, even when the argument aliases x or one of x's own bounds; if the checking policy throws, x keeps its old value.", "quantifier": "all formats, policies, modes, operand values, and every aliasing of the argument with the target", "why_tests_cant": "Aliasing and exception interleavings are program histories, not values.", "anchors": ["include/boost/numeric/interval/arith.hpp: operator+=,-=,*=,/=", "include/boost/numeric/interval/interval.hpp: set, set_empty", "doc/interval.htm: Operators"]}
{"id": "C09", "title": "square is the tightest enclosure and refines x*x", "statement": "square(x) is the smallest representable interval containing r*r for r in x, and it is a subset of x*x.", "quantifier": "all IEEE-style binary formats (any precision/exponent range), both directed-rounding policies (std and opp), every documented checking policy, every rounding mode in force at the call, every argument evaluation order, every pair of valid intervals including unbounded ones, subnormals and overflow", "why_tests_cant": "Needs all sign configurations and all rounding situations.", "anchors": ["include/boost/numeric/interval/arith2.hpp: square"]}
{"id": "C10", "title": "Integer power encloses the real power", "statement": "For a valid interval x and int n>0, pow(x,n) contains r^n for every r in x; for n<0 it contains r^n for every nonzero r in x; bounds are never NaN, whatever the overflow or underflow inside the square-and-multiply loop; even powers are never negative.", "quantifier": "all formats, policies, modes, valid x and all int n > INT_MIN", "why_tests_cant": "The loop depth and the intermediate overflow/underflow patterns are unbounded in n and x.", "anchors": ["include/boost/numeric/interval/arith2.hpp: pow, pow_dn, pow_up, multiplicative_inverse"]}
{"id": "C11", "title": "pow with exponent zero is one", "statement": "As documented, for every non-empty interval x, pow(x,0) is the singleton 1, even if x contains 0.", "quantifier": "all valid intervals", "why_tests_cant": "A single special input violates it.", "anchors": ["include/boost/numeric/interval/arith2.hpp: pow lines 168-173", "doc/interval.htm: pow"]}
{"id": "C12", "title": "pow is total on int exponents", "statement": "pow(x, n) is defined for every int n.", "quantifier": "all int n including the most negative value", "why_tests_cant": "Only one of 2^32 exponents triggers the undefined negation.", "anchors": ["include/boost/numeric/interval/arith2.hpp: pow line 175"]}
{"id": "C13", "title": "sqrt is the tightest enclosure of the real square root", "statement": "For valid x meeting [0,+inf), sqrt(x) is the smallest representable interval containing sqrt(r) for every nonnegative r in x; if x is entirely negative the result is empty (or the policy's exception).", "quantifier": "all IEEE-style binary formats (any precision/exponent range), both directed-rounding policies (std and opp), every documented checking policy, every rounding mode in force at the call, every argument evaluation order, every pair of valid intervals including unbounded ones, subnormals and overflow", "why_tests_cant": "Correct rounding of the root for every bound cannot be sampled.", "anchors": ["include/boost/numeric/interval/arith2.hpp: sqrt", "include/boost/numeric/interval/rounded_arith.hpp: sqrt_down/sqrt_up"]}
{"id": "C14", "title": "multiplicative_inverse is the tightest enclosure of 1/x", "statement": "For valid x not {0}, multiplicative_inverse(x) is the smallest representable interval containing 1/r for nonzero r in x; for {0} it is empty (or the policy's exception).", "quantifier": "all IEEE-style binary formats (any precision/exponent range), both directed-rounding policies (std and opp), every documented checking policy, every rounding mode in force at the call, every argument evaluation order, every pair of valid intervals including unbounded ones, subnormals and overflow", "why_tests_cant": "Sign and zero placement crossed with rounding.", "anchors": ["include/boost/numeric/interval/arith2.hpp: multiplicative_inverse"]}
{"id": "C15", "title": "abs, min, max and norm are the exact set extensions", "statement": "abs(x), min(x,y), max(x,y) are exactly {|r|}, {min(r,s)}, {max(r,s)} over the members; norm(x) is the least upper bound of |r| over x.", "quantifier": "all formats, policies, modes, valid intervals", "why_tests_cant": "Exact set equality over all representable bounds.", "anchors": ["include/boost/numeric/interval/utility.hpp: abs, min, max, norm"]}
{"id": "C16", "title": "nth_root encloses the real root", "statement": "For valid x and odd k>=1, nth_root(x,k) contains the real k-th root of every r in x; for even k that of every nonnegative r in x; in particular nth_root(pow(x,k),k) contains every r (or |r|) in x.", "quantifier": "all formats, policies, modes, valid x, k>=1", "why_tests_cant": "The Newton loop length and all intermediate roundings depend on the input; the failing inputs are one ulp apart from passing ones.", "anchors": ["include/boost/numeric/interval/arith2.hpp: nth_root, root_aux, root_aux_dn, root_aux_up"]}
{"id": "C17", "title": "The nth_root Newton loop terminates", "statement": "For every finite x > 1 and k >= 2 the refinement loop inside nth_root reaches its fixed point after finitely many iterations.", "quantifier": "all formats, x and k", "why_tests_cant": "Non-termination cannot be observed by a test.", "anchors": ["include/boost/numeric/interval/arith2.hpp: root_aux"]}
{"id": "C18", "title": "Interval operations leave the caller's rounding mode unchanged", "statement": "With the default (protected) rounding policy every library operation leaves the floating-point rounding mode exactly as it found it, both on normal return and when an exception propagates.", "quantifier": "all operations, inputs, checking policies, ambient rounding modes", "why_tests_cant": "A leaked mode corrupts unrelated later code; tests would have to observe the FPU state after each of all paths.", "anchors": ["include/boost/numeric/interval/rounding.hpp: save_state", "include/boost/numeric/interval/hw_rounding.hpp: rounded_math", "include/boost/numeric/interval/arith2.hpp", "include/boost/numeric/interval/transc.hpp"]}
{"id": "C19", "title": "An unprotected rounding is only used inside a live rounding object", "statement": "As documented, the library itself never runs unprotected arithmetic unless a protecting rounding object is alive, so results do not depend on the rounding mode the caller happened to have.", "quantifier": "all operations, inputs and ambient rounding modes", "why_tests_cant": "The result under the default mode may be right by luck for most inputs.", "anchors": ["include/boost/numeric/interval/policies.hpp: unprotect", "include/boost/numeric/interval/arith2.hpp: nth_root, fmod", "include/boost/numeric/interval/transc.hpp: cos, sin, tan", "doc/rounding.htm: Protection"]}
{"id": "C20", "title": "The std and opp rounding policies agree", "statement": "Every directed operation (add, sub, mul, div, sqrt, integer rounding, conversion, median) returns a number of the same value under rounded_arith_std and rounded_arith_opp; consequently the interval operations give equal intervals.", "quantifier": "all formats, operand values, modes", "why_tests_cant": "The sign-flip trick must be right for every operand, including zeros, overflow and subnormals.", "anchors": ["include/boost/numeric/interval/rounded_arith.hpp: rounded_arith_std, rounded_arith_opp"]}
{"id": "C21", "title": "Results do not depend on argument evaluation order", "statement": "C++ leaves the order of evaluation of the two bound computations unspecified; every operation returns the same interval and leaves the same rounding mode under every order.", "quantifier": "all operations, inputs, and all evaluation orders", "why_tests_cant": "A test binary exhibits one order only.", "anchors": ["include/boost/numeric/interval/arith.hpp", "include/boost/numeric/interval/arith2.hpp", "include/boost/numeric/interval/rounded_arith.hpp"]}
{"id": "C22", "title": "Unprotected computation inside one rounding scope equals the protected one", "statement": "Evaluating any arithmetic expression with the unprotected interval type inside a single rounding object gives the same interval as evaluating it with the protected type, and still restores the mode at the end.", "quantifier": "all expressions, inputs and ambient modes", "why_tests_cant": "Quantifies over all expression shapes.", "anchors": ["include/boost/numeric/interval/policies.hpp: unprotect", "include/boost/numeric/interval/rounding.hpp: save_state_unprotected", "doc/rounding.htm"]}
{"id": "C23", "title": "Fundamental theorem of interval arithmetic for expressions", "statement": "For every expression built from variables, constants and the library operations, if the real expression is defined at a point of the input box then the interval evaluation returns normally and its result contains the real value.", "quantifier": "all expression trees of any depth, all input boxes, all points in them", "why_tests_cant": "Unbounded expression depth, continuum of points.", "anchors": ["include/boost/numeric/interval/arith.hpp", "include/boost/numeric/interval/arith2.hpp", "include/boost/numeric/interval/utility.hpp", "doc/interval.htm"]}
{"id": "C24", "title": "Inclusion isotonicity", "statement": "If x is a subset of x' and y of y' then x op y is a subset of x' op y', and the same for whole expressions.", "quantifier": "all expressions and all nested boxes", "why_tests_cant": "Relates two runs on arbitrary nested inputs.", "anchors": ["include/boost/numeric/interval/arith.hpp", "include/boost/numeric/interval/arith2.hpp"]}
{"id": "C25", "title": "Validity is an invariant", "statement": "Starting from valid intervals (ordered, non-NaN bounds, lower not +inf, upper not -inf), every sequence of operations that returns normally yields valid (or, if the policy allows it, empty) intervals: NaN bounds never appear otherwise.", "quantifier": "all operation sequences and inputs", "why_tests_cant": "Histories of unbounded length.", "anchors": ["include/boost/numeric/interval/arith.hpp", "include/boost/numeric/interval/arith2.hpp", "include/boost/numeric/interval/utility.hpp", "include/boost/numeric/interval/checking.hpp"]}
{"id": "C26", "title": "Empty intervals propagate", "statement": "With a checking policy that allows empty intervals, every arithmetic operation with an empty argument returns the empty interval (hull ignores it), median/norm/checked bounds return NaN, width returns 0, without touching the rounding mode.", "quantifier": "all operations, all checking policies allowing empty, all empty representations and all other arguments", "why_tests_cant": "Every operation times every representation of empty.", "anchors": ["include/boost/numeric/interval/detail/test_input.hpp", "include/boost/numeric/interval/checking.hpp", "include/boost/numeric/interval/utility.hpp"]}
{"id": "C27", "title": "checking_no_empty never yields an empty interval", "statement": "With checking_no_empty (hence the default policy) no operation applied to valid intervals ever returns an empty interval; it throws the configured exception exactly when the real result set is empty.", "quantifier": "all operations and valid inputs", "why_tests_cant": "Must hold for every input of every operation.", "anchors": ["include/boost/numeric/interval/checking.hpp: checking_no_empty, checking_strict"]}
{"id": "C28", "title": "NaN numbers are handled as the checking policy says", "statement": "For a NaN number argument: under checking_base the result is empty (hull keeps the other argument); under checking_catch_nan every constructor, assignment and mixed operator throws the invalid-number exception; numbers that are not NaN never trigger either.", "quantifier": "all mixed operations, all other arguments", "why_tests_cant": "Cross product of operations, policies and values.", "anchors": ["include/boost/numeric/interval/checking.hpp: checking_catch_nan, checking_no_nan", "include/boost/numeric/interval/detail/test_input.hpp", "include/boost/numeric/interval/interval.hpp"]}
{"id": "C29", "title": "Constructors and assignment enclose their arguments", "statement": "interval() is {0}; interval(v) is {v}; interval(l,u) is [l,u] when l<=u and otherwise empty (or the policy's exception); constructing from another number type or another interval type yields the tightest representable enclosure of the argument; copies are exact; conversions propagate emptiness.", "quantifier": "all values, source formats, policies, modes", "why_tests_cant": "Directed conversion must be right for every source value.", "anchors": ["include/boost/numeric/interval/interval.hpp: constructors, operator=, assign", "include/boost/numeric/interval/rounded_arith.hpp: conv_down/conv_up"]}
{"id": "C30", "title": "assign uses the values its arguments had at the call", "statement": "x.assign(l,u) with l<=u makes x the interval [l,u] for the values l and u had when the call was made.", "quantifier": "all values and all aliasings of l and u with the bounds of x", "why_tests_cant": "Aliasing histories.", "anchors": ["include/boost/numeric/interval/interval.hpp: assign, set"]}
{"id": "C31", "title": "Conversion from integer types encloses the integer", "statement": "Constructing an interval from an integer encloses it as tightly as the format allows.", "quantifier": "all integer types, all values", "why_tests_cant": "Only negated extremes and unsigned operands fail.", "anchors": ["include/boost/numeric/interval/interval.hpp: template constructor", "include/boost/numeric/interval/rounded_arith.hpp: rounded_arith_opp::conv_down"]}
{"id": "C32", "title": "Set operations agree with sets of reals", "statement": "intersect, hull, in, zero_in, subset, proper_subset, overlap, equal, singleton, empty return exactly the set-theoretic answer for the represented sets of reals (hull: the smallest interval containing both).", "quantifier": "all formats, policies, all valid and empty intervals", "why_tests_cant": "Set predicates over a continuum.", "anchors": ["include/boost/numeric/interval/utility.hpp"]}
{"id": "C33", "title": "width is the directed difference", "statement": "width(x) is the least representable number that is at least upper-lower (0 for an empty interval), hence nonnegative and an upper bound of |r-s| for members r, s.", "quantifier": "all formats, policies, modes, valid x", "why_tests_cant": "Rounding of every difference.", "anchors": ["include/boost/numeric/interval/utility.hpp: width"]}
{"id": "C34", "title": "median is the rounded midpoint and lies in the interval", "statement": "For every valid interval median(x) is (lower+upper)/2 rounded to nearest and lies inside x.", "quantifier": "all valid intervals", "why_tests_cant": "Fails only for bounds whose sum overflows or for infinite bounds.", "anchors": ["include/boost/numeric/interval/utility.hpp: median", "include/boost/numeric/interval/rounded_arith.hpp: median"]}
{"id": "C35", "title": "bisect splits without loss", "statement": "For every valid interval bisect(x) returns two valid intervals sharing one point whose union is x.", "quantifier": "all valid intervals", "why_tests_cant": "Depends on median for every input.", "anchors": ["include/boost/numeric/interval/utility.hpp: bisect"]}
{"id": "C36", "title": "widen by a nonnegative amount is a superset", "statement": "For v >= 0, widen(x,v) is the tightest enclosure of {t : |t-r| <= v for some r in x}.", "quantifier": "all formats, policies, modes, valid x and finite v>=0", "why_tests_cant": "Rounding at both ends for all values.", "anchors": ["include/boost/numeric/interval/utility.hpp: widen"]}
{"id": "C37", "title": "Default comparisons implement the documented three-way rule", "statement": "x op y (op in <,<=,>,>=,==,!=; y an interval or a number) returns true iff all pairs of members satisfy op, false iff none does, and throws comparison_error otherwise; empty or NaN arguments throw.", "quantifier": "all formats, checking policies, intervals and numbers", "why_tests_cant": "Quantifies over all pairs of members.", "anchors": ["include/boost/numeric/interval/interval.hpp: comparison operators, interval_holder, number_holder", "doc/comparisons.htm"]}
{"id": "C38", "title": "certain and possible comparisons are the universal and existential quantifier", "statement": "In namespace certain x op y is true iff all member pairs satisfy op; in namespace possible iff some pair does; they are dual (certain op = not possible (not op)); empty arguments throw comparison_error.", "quantifier": "all intervals, numbers, policies", "why_tests_cant": "Quantifies over all pairs of members.", "anchors": ["include/boost/numeric/interval/compare/certain.hpp", "include/boost/numeric/interval/compare/possible.hpp"]}
{"id": "C39", "title": "tribool comparisons never lie", "statement": "In namespace tribool x op y is true iff all pairs satisfy op, false iff no pair does, indeterminate otherwise.", "quantifier": "all intervals, numbers, policies", "why_tests_cant": "Quantifies over all pairs of members.", "anchors": ["include/boost/numeric/interval/compare/tribool.hpp"]}
{"id": "C40", "title": "Lexicographic comparison is a total order", "statement": "In namespace lexicographic <= is a total order on valid intervals (up to equality of bounds), < is its strict part, == and != are equality and its negation, >,>= the converses; number arguments behave as the singleton.", "quantifier": "all intervals, triples of intervals", "why_tests_cant": "Order axioms quantify over triples.", "anchors": ["include/boost/numeric/interval/compare/lexicographic.hpp"]}
{"id": "C41", "title": "Set comparison is the inclusion order", "statement": "In namespace set <=,<,>=,>,==,!= are subset, proper subset, their converses, and (in)equality of sets, with empty as least element; comparison with a number always throws.", "quantifier": "all valid and empty intervals", "why_tests_cant": "Set predicates over a continuum.", "anchors": ["include/boost/numeric/interval/compare/set.hpp", "include/boost/numeric/interval/utility.hpp"]}
{"id": "C42", "title": "Explicit cer*/pos* functions are the quantifiers", "statement": "For valid intervals cerXX(x,y) holds iff every pair of members satisfies XX and posXX(x,y) iff some pair does; the three argument forms (interval/interval, interval/number, number/interval) agree.", "quantifier": "all valid intervals and numbers", "why_tests_cant": "Quantifies over all pairs of members.", "anchors": ["include/boost/numeric/interval/compare/explicit.hpp"]}
{"id": "C43", "title": "fmod returns a translate by an integer multiple", "statement": "For y with positive lower bound and finite upper bound, fmod(x,y) contains r - n*s for every r in x, s in y, for one and the same integer n; its lower bound is >= 0.", "quantifier": "all formats, policies, modes, finite x and y>0", "why_tests_cant": "The quotient, its floor and the product are all rounded.", "anchors": ["include/boost/numeric/interval/arith2.hpp: fmod", "include/boost/numeric/interval/rounded_arith.hpp: int_down"]}
{"id": "C44", "title": "fmod's lower bound is below the modulus", "statement": "As documented, for every x and y with positive lower bound, z = fmod(x,y) satisfies z.lower() < y.upper().", "quantifier": "all finite x and y>0", "why_tests_cant": "Fails only when the quotient exceeds the precision.", "anchors": ["include/boost/numeric/interval/arith2.hpp: fmod", "doc/interval.htm: fmod"]}
{"id": "C45", "title": "pi, pi_half and pi_twice enclose the constants", "statement": "pi<I>(), pi_half<I>(), pi_twice<I>() contain pi, pi/2, 2pi for float, double, long double and for any other base type; for float and double the bounds are adjacent representable numbers; evaluation of the defining expressions involves no rounding.", "quantifier": "the real numbers pi, pi/2, 2pi; every base type; every rounding mode during constant evaluation", "why_tests_cant": "pi is irrational: no test can compare with it.", "anchors": ["include/boost/numeric/interval/constants.hpp"]}
{"id": "C46", "title": "Monotone transcendental functions enclose the real function", "statement": "exp, log, asin, acos, atan, sinh, cosh, tanh, asinh, acosh, atanh of a valid interval contain the real function value at every member in the function's domain, and are empty (or throw) when no member is in the domain, provided the math library honours the rounding mode.", "quantifier": "all formats, rounding policies rounded_transc_std and rounded_transc_opp, modes, valid x", "why_tests_cant": "Continuum of members.", "anchors": ["include/boost/numeric/interval/transc.hpp", "include/boost/numeric/interval/rounded_transc.hpp"]}
{"id": "C47", "title": "cos, sin and tan enclose the real function and terminate", "statement": "For every valid finite interval, cos(x), sin(x), tan(x) terminate and contain the real function value at every member (tan: where defined), provided the math library honours the rounding mode.", "quantifier": "all formats, modes, all valid bounded x", "why_tests_cant": "Argument reduction with an inexact period over a continuum of members, recursion.", "anchors": ["include/boost/numeric/interval/transc.hpp: cos, sin, tan", "include/boost/numeric/interval/arith2.hpp: fmod", "include/boost/numeric/interval/constants.hpp"]}
{"id": "C48", "title": "Every *_down function of rounded_transc_opp is a lower bound", "statement": "With a math library that honours the current rounding mode, each f_down(x) of rounded_transc_opp is <= f(x) for the real function f.", "quantifier": "all functions, all arguments", "why_tests_cant": "Off by one ulp for almost all arguments but equal on exact cases.", "anchors": ["include/boost/numeric/interval/rounded_transc.hpp: rounded_transc_opp"]}
{"id": "C49", "title": "Extended-precision evaluation with forced rounding is still directed", "statement": "When the hardware evaluates in a wider format (x87) and the result is forced to the base format under the same directed mode, every *_down/*_up operation still returns exactly the directed rounding of the real result.", "quantifier": "all pairs of formats, operands, directed modes", "why_tests_cant": "Double rounding errors occur on isolated operands.", "anchors": ["include/boost/numeric/interval/detail/x86_rounding_control.hpp: force_rounding", "include/boost/numeric/interval/rounded_arith.hpp"]}
{"id": "C50", "title": "Exact base types give exact intervals", "statement": "For an exact ordered field as base type (e.g. rational) with the default rounding policy, +,-,*,/ (zero-free divisor), square, abs, min, max, pow return exactly the image set.", "quantifier": "all rational bounds", "why_tests_cant": "Unbounded rationals.", "anchors": ["include/boost/numeric/interval/rounding.hpp: rounded_math", "include/boost/numeric/interval/rounded_arith.hpp: rounded_arith_exact"]}
{"id": "C51", "title": "Machine integers: exact while in range, undefined on overflow, division not enclosing", "statement": "For interval<int>, +,-,* equal the exact image set whenever the bound computations stay in range and are undefined otherwise; division does not have the inclusion property.", "quantifier": "all int bounds", "why_tests_cant": "2^128 operand pairs.", "anchors": ["include/boost/numeric/interval/rounding.hpp: rounded_math", "include/boost/numeric/interval/rounded_arith.hpp: rounded_arith_exact", "doc/rounding.htm: Some Examples"]}
{"id": "C52", "title": "Number functions add, sub, mul, div enclose the exact result tightly", "statement": "add<I>(a,b), sub, mul, div of two finite numbers return the tightest representable interval containing the exact real result; div by zero gives empty (or the policy's exception).", "quantifier": "all formats, policies, modes, finite operands", "why_tests_cant": "Rounding of every operand pair.", "anchors": ["include/boost/numeric/interval/arith3.hpp"]}
{"id": "C53", "title": "Operations with int operands equal the exact integer operation", "statement": "With ext/integer.hpp, x op n for an int n encloses r op n for every r in x.", "quantifier": "all formats, all int n", "why_tests_cant": "Fails only for ints that do not fit the significand.", "anchors": ["include/boost/numeric/interval/ext/integer.hpp", "doc/interval.htm: Mixed operations with integers"]}
{"id": "C54", "title": "Rounding-control back ends program the documented direction and round-trip", "statement": "On every supported FPU, downward/upward/to_nearest/toward_zero set the hardware rounding field to the encoding of that direction, and set_rounding_mode(get_rounding_mode()) restores the field.", "quantifier": "all previous control-word contents", "why_tests_cant": "All 2^16..2^64 control words.", "anchors": ["include/boost/numeric/interval/detail/x86_rounding_control.hpp", "include/boost/numeric/interval/detail/msvc_rounding_control.hpp", "include/boost/numeric/interval/detail/alpha_rounding_control.hpp", "include/boost/numeric/interval/detail/ppc_rounding_control.hpp", "include/boost/numeric/interval/detail/sparc_rounding_control.hpp", "include/boost/numeric/interval/detail/c99sub_rounding_control.hpp", "include/boost/numeric/interval/ext/x86_fast_rounding_control.hpp"]}
{"id": "C55", "title": "numeric_limits of intervals", "statement": "numeric_limits<interval>::infinity() is the whole line, quiet_NaN() is the empty interval under a policy that allows one and never returns otherwise (the policy's exception cannot leave the noexcept function), min/max/epsilon/denorm_min are the singletons of the base type's values.", "quantifier": "all policies and formats", "why_tests_cant": "Depends on the policy.", "anchors": ["include/boost/numeric/interval/limits.hpp"]}
{"id": "C56", "title": "Stream output identifies emptiness and bounds", "statement": "operator<< prints \"[]\" exactly for empty intervals and otherwise '[' lower ',' upper ']'; distinct bounds print distinctly whenever the number printer is injective and comma-free.", "quantifier": "all intervals, any number printer", "why_tests_cant": "All values.", "anchors": ["include/boost/numeric/interval/io.hpp"]}
{"id": "C57", "title": "The documented Horner example encloses the polynomial", "statement": "horner(x,p,n) with a single rounding scope returns an interval containing the polynomial value for every member of x and every choice of coefficients in p, for every degree, and restores the rounding mode.", "quantifier": "all degrees, coefficients, boxes, modes", "why_tests_cant": "Unbounded degree.", "anchors": ["examples/horner.cpp", "doc/rounding.htm"]}
{"id": "C58", "title": "The Newton example loses no root, ends, and returns narrow intervals", "statement": "On every interval of doubles with bounds of magnitude at most 2^1022, both newton_raphson functions end; every interval they return lies inside the argument and is narrower than 1e-10, every root of the polynomial in the argument lies in a returned interval, and the rounding object restores the caller's mode.", "quantifier": "all bounded arguments, checking policies, rounding modes, evaluation orders, platforms with double bounds", "why_tests_cant": "Termination and completeness over all pairs of doubles; no bound on the number of iterations.", "anchors": ["examples/newton-raphson.cpp", "include/boost/numeric/interval/arith2.hpp: division_part1", "include/boost/numeric/interval/arith2.hpp: division_part2", "include/boost/numeric/interval/utility.hpp: bisect"]}
{"id": "C59", "title": "The interval determinant filter answers a proved sign", "statement": "det_sign_algo1 answers 1 only if the determinant of the matrix is positive and -1 only if it is negative, for every finite matrix of every dimension, whatever the initial contents of its work area; it restores the rounding mode, and it never answers 0 on a triangular matrix of nonzero determinant.", "quantifier": "all dimensions, finite matrices, policies, modes, evaluation orders, formats", "why_tests_cant": "Rounding errors of every matrix of every size; the claim is about the exact determinant.", "anchors": ["examples/filter.cpp: det_sign_algo1"]}
{"id": "C60", "title": "The validated floating-point determinant filter answers a proved sign", "statement": "det_sign_algo2, which decomposes in floating point and validates the result with intervals, answers 1 only if the determinant is positive and -1 only if it is negative.", "quantifier": "all dimensions, finite matrices, policies, modes, formats", "why_tests_cant": "Rounding errors of every matrix of every size; overflow.", "anchors": ["examples/filter.cpp: det_sign_algo2"]}
{"id": "C61", "title": "The search for zeros by dichotomy loses no zero and ends", "statement": "find_zeros, called with a function on intervals that encloses a (partial) real function and with a bounded range, ends; it prints intervals that lie in the range and are narrower than 1e-6 (5e-3 in both directions for the version with two variables), on which the value of the function contains zero, and every zero of the function in the range lies in one of them; the rounding mode is unchanged.", "quantifier": "all functions that enclose a real function, ranges, policies, modes, platforms with double bounds", "why_tests_cant": "All functions and ranges; no bound on the number of iterations; a loop that bisects floating-point intervals may never end.", "anchors": ["examples/findroot_demo.cpp: find_zeros", "include/boost/numeric/interval/utility.hpp: bisect", "include/boost/numeric/interval/utility.hpp: width", "include/boost/numeric/interval/utility.hpp: zero_in"]}
{"id": "C62", "title": "The demonstration of the search prints all zeros of its three functions", "statement": "The three calls of main end and print narrow intervals around every zero of sin(x)/(x*x+1) in [-11,10], of sqrt(x*x-1) in [-5,6] and of Van Iwaarden's function of two variables in [-20,20] x [-20,20]; the computed value on each of them contains zero, and those printed for sqrt(x*x-1) lie within 2e-6 of 1 or -1; the int that counts iterations does not overflow.", "quantifier": "all libraries that honour the rounding mode, both classes of rounded transcendental functions, modes, evaluation orders", "why_tests_cant": "Up to 2^27 iterations over transcendental functions; the zeros are irrational.", "anchors": ["examples/findroot_demo.cpp: main", "examples/findroot_demo.cpp: test_func2d", "examples/findroot_demo.cpp: test_func1d", "examples/findroot_demo.cpp: test_func1d_2"]}
{"id": "C63", "title": "Algebraic laws survive rounding", "statement": "Expressions made equal by a law of the reals that uses every operand once give intervals with the same bounds: +, *, max, min, hull and intersect commute; 0 and 1 are neutral; signs move through +, -, *, /, max and min; abs and square are even; x+x equals 2*x; max, min, hull and intersect are associative and idempotent, and hull and intersect absorb each other.", "quantifier": "all nonempty operands (infinite bounds included), policies, modes, evaluation orders, formats", "why_tests_cant": "All pairs and triples of intervals, with both roundings of both expressions.", "anchors": ["include/boost/numeric/interval/arith.hpp", "include/boost/numeric/interval/arith2.hpp", "include/boost/numeric/interval/utility.hpp"]}
{"id": "C64", "title": "Fundamental theorem with transcendental functions", "statement": "Any expression built from the operations and from exp, log, sin, cos, tan, asin, acos, atan, sinh, cosh, tanh, asinh, acosh and atanh at any place, evaluated over intervals with rounded_transc_std, returns a nonempty interval that contains every value the real expression takes at points of the operands; the rounding mode is restored.", "quantifier": "all expressions (any depth), operands, points, libraries that honour the rounding mode, policies, modes, evaluation orders, formats", "why_tests_cant": "Unbounded expressions, continuum of points, unknown library.", "anchors": ["include/boost/numeric/interval/transc.hpp", "include/boost/numeric/interval/rounded_transc.hpp", "include/boost/numeric/interval/constants.hpp", "include/boost/numeric/interval/arith.hpp"]}
{"id": "C65", "title": "Reading intervals from a stream", "statement": "operator>> of the input/output example reads exactly the texts [l,u], [l] and l, with blanks anywhere, sets the object to that interval and leaves the rest of the input; it reads back what the example prints in its standard and singleton styles; any other input sets failbit and makes the object empty; no input has undefined behaviour.", "quantifier": "all inputs, number conversions, objects, checking policies, modes", "why_tests_cant": "All texts of any length.", "anchors": ["examples/io.cpp: operator>>", "examples/io.cpp: io_std", "examples/io.cpp: io_sngl", "include/boost/numeric/interval/interval.hpp: assign"]}
{"id": "C66", "title": "Correctly rounded transcendental functions give the tightest intervals", "statement": "With the rounding class of the MPFR example, all fourteen functions return a nonempty interval that contains every value on the operand, and so do expressions built from them; exp, log, asin, acos, atan, sinh, cosh, tanh, asinh, acosh and atanh return the tightest interval of doubles. Every call of the example's program returns. The same tightness holds for rounded_transc_std over a correctly rounding C library.", "quantifier": "all operands where the function is defined somewhere, MPFR or C libraries that round correctly, modes, evaluation orders, checking policies", "why_tests_cant": "Optimality among all intervals over the continuum of values, limits at infinity and at the bounds of the domain.", "anchors": ["examples/transc.cpp: full_rounding", "examples/transc.cpp: invoke_mpfr", "include/boost/numeric/interval/transc.hpp", "include/boost/numeric/interval/constants.hpp"]}
{"id": "C67", "title": "Smaller operands give smaller results, also through transcendental functions", "statement": "If every operand of an expression built from the operations and the transcendental functions shrinks, its result shrinks: the new result is contained in the old one. This is asked of correctly rounded functions (rounded_transc_std over a correctly rounding C library, and the MPFR example).", "quantifier": "all expressions (any depth), pairs of nested operands, correctly rounding libraries, policies, modes, evaluation orders, float and double", "why_tests_cant": "All nested pairs of intervals and all expressions; the reduction of arguments modulo a period is discontinuous.", "anchors": ["include/boost/numeric/interval/transc.hpp", "include/boost/numeric/interval/arith.hpp", "examples/transc.cpp: full_rounding"]}
{"id": "C68", "title": "sin and cos stay within [-1,1]; cos and tan are tightest on their first monotonic piece", "statement": "With correctly rounded functions, sin and cos of any nonempty interval return a nonempty interval that contains every value and lies within [-1,1]. cos of an interval inside [0,pi], and tan of an interval inside [0,t) for a number t below pi/2, return the tightest interval. sin is asked to be tightest as well.", "quantifier": "all nonempty operands, correctly rounding C libraries or MPFR, policies, modes, evaluation orders, float and double", "why_tests_cant": "All operands, of any magnitude and any width, including unbounded ones; optimality among all intervals.", "anchors": ["include/boost/numeric/interval/transc.hpp: cos", "include/boost/numeric/interval/transc.hpp: sin", "include/boost/numeric/interval/transc.hpp: tan", "include/boost/numeric/interval/arith2.hpp: fmod", "examples/transc.cpp: full_rounding"]}
{"id": "C69", "title": "No rounding where none is needed", "statement": "If the exact interval of every subexpression has bounds that are numbers of the base type, no divisor contains zero and no exponent is negative, the library returns exactly that interval: nothing is widened. In particular an expression of +, -, *, unary minus, abs, square, pow, max, min and hull over intervals with integer bounds, whose intermediate bounds cannot exceed 2^p in absolute value (p bits of precision), is computed exactly and has integer bounds.", "quantifier": "all expressions (any depth), operands, positive exponents, policies, rounding classes, formats, evaluation orders", "why_tests_cant": "All expressions and all operands with representable exact results; a unit test shows a few integers.", "anchors": ["include/boost/numeric/interval/arith.hpp", "include/boost/numeric/interval/arith2.hpp: pow", "include/boost/numeric/interval/utility.hpp", "include/boost/numeric/interval/rounded_arith.hpp"]}
{"id": "C70", "title": "Results are narrow: one rounding per operation, linear convergence for expressions", "statement": "Within the range of the format, each bound returned by +, -, *, / (divisor without zero), max, min, unary minus, abs, square, sqrt and multiplicative_inverse differs from the exact bound by at most one unit in the last place (relative 2^(1-p), plus the smallest positive number); each bound of pow(x, n), n > 0, with x within [-G, G], G >= 1, by at most G^n ((1 + 2^(2-p))^(n-1) - 1), about n-1 roundings. For an expression of these over a box on which nothing overflows and no divisor or square root reaches zero there are constants L and K, given by the expression and the magnitudes on that box, such that over every smaller box the returned interval contains all true values and its width is at most L times the width of the box plus K times 2^(1-p). So subdividing converges, up to rounding.", "quantifier": "all operands, all expressions (any depth), all boxes and sub-boxes, policies, rounding classes, formats, evaluation orders", "why_tests_cant": "A bound on the overestimation for every expression and every sub-box, uniformly; a unit test measures single widths.", "anchors": ["include/boost/numeric/interval/arith.hpp", "include/boost/numeric/interval/arith2.hpp: square", "include/boost/numeric/interval/arith2.hpp: sqrt", "include/boost/numeric/interval/arith2.hpp: multiplicative_inverse", "include/boost/numeric/interval/utility.hpp", "include/boost/numeric/interval/rounded_arith.hpp"]}
{"id": "C71", "title": "More precision never gives wider results", "statement": "Evaluate the same expression over a base type and over one with at least as many digits and at least the exponent range (float and double, double and the x87 extended type), with intervals inside those of the coarse program and the same numbers. Whatever the two rounding policies, platforms and evaluation orders, the result over the finer type is contained in the result over the coarser one. If the coarse program reports an empty result by an exception so does the fine one, and if only the fine one does the expression has no value at all.", "quantifier": "all expressions (any depth), pairs of formats, platforms, rounding policies, operands, checking policies, evaluation orders", "why_tests_cant": "Two compilations of every expression related for all operands; directed rounding, overflow and repeated rounding in pow differ between the formats.", "anchors": ["include/boost/numeric/interval/arith.hpp", "include/boost/numeric/interval/arith2.hpp: pow", "include/boost/numeric/interval/utility.hpp", "include/boost/numeric/interval/rounded_arith.hpp"]}
{"id": "C72", "title": "The searches for zeros print nothing but near-zeros", "statement": "When the function given to find_zeros is an expression over +, -, *, /, min, max, unary minus, abs, square, sqrt, multiplicative_inverse and pow with a positive exponent that, over the whole range, neither overflows nor lets a divisor or the argument of a square root reach zero, every zero in the range is printed, and the value of the expression at every point of every printed interval is at most L times the limit on the width (1e-6, or 5e-3 for two variables) plus K times 2^(1-p), where L and K are given by the expression and the magnitudes on the range (the constants of C70). The same holds for expressions with transcendental functions, with the bound given by a running error analysis (C75), when the C library rounds correctly: for sin(x)/(x*x+1) on [-11,10] every multiple of pi is printed and every printed point is within 3e-6 of a multiple of pi. So no interval far from a zero is reported.", "quantifier": "all such expressions (any depth), ranges, policies, rounding classes, platforms with double bounds, evaluation orders", "why_tests_cant": "All expressions and ranges, with a bound on the values at all points of all reported intervals.", "anchors": ["examples/findroot_demo.cpp: find_zeros", "include/boost/numeric/interval/arith.hpp", "include/boost/numeric/interval/arith2.hpp", "include/boost/numeric/interval/utility.hpp: bisect", "include/boost/numeric/interval/utility.hpp: zero_in"]}
{"id": "C73", "title": "nth_root is accurate to a few units in the last place", "statement": "When a real n-th root exists, every point of nth_root(x, n) is within a relative distance of 2^(8-p) (128 units in the last place) of an n-th root of a member of x, and no root is missed, so the iteration never stops with an interval that is far too wide.", "quantifier": "all intervals, degrees, policies, rounding classes, platforms, evaluation orders", "why_tests_cant": "The interval Newton iteration stops at a fixed point that depends on the rounding of every step; whether each of the 2^128 arguments leads to a narrow fixed point cannot be sampled.", "anchors": ["include/boost/numeric/interval/arith2.hpp: nth_root", "include/boost/numeric/interval/arith2.hpp: detail::root_aux", "include/boost/numeric/interval/arith2.hpp: detail::root_aux_up", "include/boost/numeric/interval/arith2.hpp: detail::root_aux_dn", "include/boost/numeric/interval/utility.hpp: median"]}
{"id": "C74", "title": "sin, cos and tan are accurate up to the error of the argument reduction", "statement": "If the functions of the C library are correctly rounded, every point of sin(x) and cos(x) is within 2^-15 (1 + |r|) (float) or 2^-44 (1 + |r|) (double, long double) of the value at some member r of x. This holds for every nonempty x, of any magnitude, width and position in the period, bounded or not. If x keeps a distance of more than that from every pole of tan, every point of tan(x) is, up to a relative and absolute rounding error of 2^-23 (2^-52), the value of tan at a point s that is within that distance of a member r of x; in particular tan(x) is then bounded.", "quantifier": "all nonempty operands, correctly rounding C libraries or MPFR, policies, modes, evaluation orders, float, double and long double", "why_tests_cant": "A bound on the overestimation for every operand; the result depends on which of the six cases the reduced bounds fall into, and on the rounding of the number of periods.", "anchors": ["include/boost/numeric/interval/transc.hpp: cos", "include/boost/numeric/interval/transc.hpp: sin", "include/boost/numeric/interval/transc.hpp: tan", "include/boost/numeric/interval/arith2.hpp: fmod", "include/boost/numeric/interval/constants.hpp"]}
{"id": "C75", "title": "Results are no wider than a running error analysis allows", "statement": "Take any expression of +, -, *, /, unary minus, abs, sqrt, square, inverse, positive powers, min, max, intersect, widen, number operands and the fourteen transcendental functions (correctly rounded), and give every node its exact value t and an error E by the textbook rules: a variable has the radius of its interval, an operation adds to the propagated error D of its operands one rounding (relative 2^-23 or 2^-52 of |t| + D, plus the smallest positive number), sin and cos add 256 units times 1 + |argument| for the argument reduction, the divisor and the poles of tan stay further away than the errors, nothing overflows. Then the evaluation with intervals returns, without exception, an interval that contains the exact value and no number further than E from it.", "quantifier": "all expressions, operands, exact points and certified errors, correctly rounding C libraries or MPFR, policies, modes, evaluation orders, float and double", "why_tests_cant": "A bound on the overestimation of every composition at every operand; a test sees one composition at a time and has no exact value to compare with.", "anchors": ["include/boost/numeric/interval/arith.hpp: operator+ operator- operator* operator/", "include/boost/numeric/interval/arith2.hpp: sqrt square pow", "include/boost/numeric/interval/transc.hpp", "include/boost/numeric/interval/utility.hpp: intersect widen", "include/boost/numeric/interval/arith3.hpp"]}
{"id": "C76", "title": "Inclusion holds for every rounding policy that meets the documented requirements", "statement": "Take any base type with a total order, exact unary minus and the constants 0, 1 and 2, any rounding policy whose functions return bounds, f_down(x,y) <= f(x,y) <= f_up(x,y), but not necessarily the best ones, and any checking policy that recognises its own empty intervals. Then for every expression of the interval operators and functions (+, -, *, /, unary minus, abs, square, sqrt, multiplicative_inverse, max, min, hull, intersect, widen, with interval and number operands) the returned interval contains the value of the expression at all members of the operands, and a protected policy leaves the rounding mode as it was. The same holds for box arithmetic: a floating-point base type without any rounding control gives intervals that contain the number the same program computes on numbers of that type, in whatever rounding mode. For pow the documented requirements are not enough.", "quantifier": "all base types, rounding and checking policies meeting the requirements, expressions (any depth), operands, modes, evaluation orders", "why_tests_cant": "User-defined base types and policies are unknown to the library's tests; the claim is about all of them.", "anchors": ["doc/numbers.htm: Rounding", "doc/interval.htm: box arithmetic", "doc/rounding.htm", "include/boost/numeric/interval/rounding.hpp: rounded_math", "include/boost/numeric/interval/rounded_arith.hpp: rounded_arith_exact", "include/boost/numeric/interval/arith.hpp", "include/boost/numeric/interval/arith2.hpp", "include/boost/numeric/interval/arith3.hpp", "include/boost/numeric/interval/utility.hpp"]}
{"id": "C77", "title": "The functions of a rounding policy are only called on their documented domains", "statement": "doc/rounding.htm gives for each function of the rounding policy the domain on which it has to return bounds: cos_down and cos_up on [0,2pi], tan on ]-pi/2,pi/2[, log on ]0,+inf], asin, acos and atanh on [-1,1], acosh on [1,+inf], sqrt on ]0,+inf], the others everywhere; there is no sin. A policy that does this and nothing more gives correct intervals: every transcendental function, and every expression of them and the arithmetic operations, returns an interval that contains the values at all members of the operands.", "quantifier": "all base types, rounding policies meeting the requirements on the documented domains, expressions (any depth), operands, modes, evaluation orders", "why_tests_cant": "What the library asks of a user's policy has to suffice for all policies; a test can only try one, and the policies at hand work outside of the documented domains.", "anchors": ["doc/rounding.htm: Requirements", "include/boost/numeric/interval/transc.hpp", "include/boost/numeric/interval/arith2.hpp: sqrt", "include/boost/numeric/interval/arith2.hpp: fmod"]}
{"id": "C78", "title": "The library's own functions do not fail: failures come only from the base type and the policies", "statement": "doc/interval.htm, Exception throwing: the class and the functions around it never throw by themselves; an exception is thrown by the base type, the checking policy or the rounding policy. For every function of the library (constructors, assignments, accessors, arithmetic, interval functions, transcendental functions, named comparisons, and those with mixed policies) and any base type, checking policy, rounding policy and constants: an exception (or a failed assertion, or undefined behaviour on the int arguments that pow and nth_root accept) that none of them produces is not produced by the function. In particular the functions on float, double and long double with the supplied policies produce no exception other than those of the checking policy and no undefined behaviour. The comparison operators of the default scheme throw comparison_error in addition.", "quantifier": "all base types, checking, rounding and transcendental policies, operands (valid or not), initial states, exceptions", "why_tests_cant": "A claim about every function with every policy a user can write, and about the absence of an effect.", "anchors": ["doc/interval.htm: Exception throwing", "include/boost/numeric/interval/interval.hpp", "include/boost/numeric/interval/arith.hpp", "include/boost/numeric/interval/arith2.hpp", "include/boost/numeric/interval/utility.hpp", "include/boost/numeric/interval/transc.hpp", "include/boost/numeric/interval/compare.hpp", "include/boost/numeric/interval/checking.hpp"]}
{"id": "C79", "title": "What the documentation says on repeated and overlapping operands", "statement": "doc/interval.htm, Common Pitfalls: a comparison operator and its complement both return and disagree or both throw; x == x is true if x is a singleton and throws otherwise; certainly, possibly and their complements on (x,x) are as documented; x - x is 0 and x / x is 1 exactly for singletons; square(x) is x*x if and only if x does not have members of both signs. max and min of disjoint intervals return the two operands, while std::max on intervals throws when they overlap and agrees with <= when they do not. hull of overlapping intervals is their union.", "quantifier": "all intervals, policies, rounding classes, platforms, modes, evaluation orders", "why_tests_cant": "Algebraic facts that have to hold for all intervals, with equality of whole sets and with overlapping operands at every position.", "anchors": ["doc/interval.htm: Common Pitfalls and Dangers", "include/boost/numeric/interval/compare.hpp", "include/boost/numeric/interval/compare/certain.hpp", "include/boost/numeric/interval/compare/possible.hpp", "include/boost/numeric/interval/compare/explicit.hpp", "include/boost/numeric/interval/arith.hpp", "include/boost/numeric/interval/arith2.hpp: square", "include/boost/numeric/interval/utility.hpp: max min hull"]}
{"id": "C80", "title": "For exact base types the order laws of the documentation suffice", "statement": "doc/numbers.htm, Ordering and Mathematical properties: take any base type whose operators are those of a commutative ring (a field, for division) with a total order and the five listed laws, even if its elements are not real numbers, such as numbers with an infinitesimal part, and the default policies for types without rounding. Then +, -, *, max, min, unary minus, abs, square and pow, and /, multiplicative_inverse and negative powers for divisors without zero, return the least interval of the base type that contains the results on members of the operands, and every expression of them (with interval and number operands, hull, intersect, widen) contains its value at members of its operands. The laws alone, without the identities of a ring, are not enough.", "quantifier": "all ordered rings and fields (not only subfields of the reals), checking policies, operands, exponents, expressions (any depth), evaluation orders", "why_tests_cant": "The base types are user-defined and unknown to the tests; the claim is that five laws suffice for all of them.", "anchors": ["doc/numbers.htm: Mathematical properties", "include/boost/numeric/interval/rounding.hpp: rounded_math", "include/boost/numeric/interval/rounded_arith.hpp: rounded_arith_exact", "include/boost/numeric/interval/arith.hpp", "include/boost/numeric/interval/arith2.hpp: square pow multiplicative_inverse", "include/boost/numeric/interval/utility.hpp", "include/boost/numeric/interval/arith3.hpp"]}
{"id": "C81", "title": "A program on intervals of ints contains what it computes on ints, and certifies that nothing overflows", "statement": "Take any expression of +, -, *, /, unary minus, abs, square, multiplicative_inverse, pow, min, max, hull, intersect and widen with interval and number operands, and evaluate it on interval<int> (assertions on, if it divides by an interval). If the evaluation returns, then for all ints in the operands the same program run on ints, with its exact sums and products and its truncating division, overflows at no step and its result is in the returned interval. A division by an interval without zero returns the least interval containing the truncated quotients, unless INT_MIN / -1 is among them, which is undefined behaviour. With assertions off a division by an interval containing zero misses quotients; and pow may overflow on the way although the powers are ints.", "quantifier": "all expressions (any depth), intervals of ints, ints in them, exponents, checking policies, modes, evaluation orders", "why_tests_cant": "The overflow check must hold for every int in the operands and every expression; 2^32 values per variable cannot be enumerated by a test.", "anchors": ["doc/numbers.htm", "include/boost/numeric/interval/arith.hpp: operator/", "include/boost/numeric/interval/detail/division.hpp: div_non_zero", "include/boost/numeric/interval/rounded_arith.hpp: rounded_arith_exact", "include/boost/numeric/interval/arith2.hpp: pow square multiplicative_inverse", "include/boost/numeric/interval/utility.hpp"]}
{"id": "C82", "title": "Width, norm, median and bisection of intervals of ints", "statement": "On interval<int>, width returns upper - lower and norm the greatest magnitude of a member, or their value is not an int and the behaviour is undefined. median returns a member of the interval at most half a unit from the middle, and bisect two intervals that share the median and together have exactly the members of the operand, for every interval whose bounds have a sum that is an int. Repeated bisection makes progress.", "quantifier": "all intervals of ints, checking policies, modes", "why_tests_cant": "Overflow happens at the ends of the range only, and every pair of bounds would have to be tried.", "anchors": ["doc/interval.htm", "include/boost/numeric/interval/utility.hpp: width median norm bisect", "include/boost/numeric/interval/rounded_arith.hpp: rounded_arith_exact"]}
{"id": "C83", "title": "Overflow and underflow lose no enclosure", "statement": "For a finite number x, starting from the singleton interval y = x: multiplying y n times by f and then n times by g = 1/f (as computed in T under the mode in force) leaves an interval for which in(x, y) is true, whenever f has magnitude at least 2 or at most 1/2 (and 1/f neither overflows nor is subject to underflow to zero: f between 2^(2-emax) and 2^(emax-2)) and n is at least 2*emax + prec, so that every intermediate interval leaves the range of T and comes back. The 10000 iterations of the library's own test are enough for float and double, for factors between 10^-6 and 10^6, whatever the format in which expressions are evaluated. With few iterations in(x, y) may be false, because g is not 1/f.", "quantifier": "all platforms (formats of T and of expressions), policies, rounding modes, finite x (zero and negative ones included), factors f of either sign, all n above the bound", "why_tests_cant": "The test runs four pairs (x, f) on two formats; the statement ranges over all numbers and all iteration counts.", "anchors": ["test/overflow.cpp: test_one", "include/boost/numeric/interval/arith.hpp: operator*=", "include/boost/numeric/interval/utility.hpp: in"]}
{"id": "C84", "title": "The four variants of an interval type compute the same numbers", "statement": "Gaussian elimination with total pivoting on intervals gives bit for bit the same matrix (or raises the same exception) with the default type interval<T>, with the same type over save_state<rounded_arith_std<T> >, and with the unprotected versions of both types inside one rounding object; each of the four runs leaves the rounding mode as it was. So equal() holds cell by cell, whenever the bounds are numbers.", "quantifier": "all dimensions, formats, checking policies, evaluation orders of arguments and initial rounding modes", "why_tests_cant": "The test compares the four variants for one dimension, one format and one rounding mode.", "anchors": ["test/det.cpp: det test", "include/boost/numeric/interval/rounded_arith.hpp: rounded_arith_std rounded_arith_opp", "include/boost/numeric/interval/rounding.hpp: save_state save_state_unprotected", "include/boost/numeric/interval/policies.hpp: unprotect"]}
{"id": "C85", "title": "An interval program contains what the same program computes on numbers, and bounds its rounding error", "statement": "If the variables of an expression over +, -, *, /, unary minus, abs, min, max, sqrt, square and inverse are set to numbers that lie in the operand intervals, and the expression is evaluated on these numbers by the hardware, in any one rounding mode and without meeting an infinity or a NaN, then the interval evaluation does not fail and its result contains the number obtained, although both results are rounded. The width of the result bounds the error of the computation on numbers with respect to the exact value of the expression.", "quantifier": "all platforms (evaluation in extended formats included), policies, rounding modes of the scalar computation, expressions, operand intervals and numbers in them", "why_tests_cant": "The test compares a few functions at the bounds and the median of 67 intervals in one rounding mode, and no composed expressions.", "anchors": ["test/test_float.cpp: test_unary", "include/boost/numeric/interval/arith.hpp", "include/boost/numeric/interval/arith2.hpp: sqrt square", "include/boost/numeric/interval/utility.hpp: width in"]}
{"id": "C86", "title": "fmod on intervals of ints with a rounding policy of the user", "statement": "With the rounding policy of test/fmod.cpp (exact sub and mul, a quotient rounded down), fmod(x, y) on interval<int>, for x and y intervals or one of them a number, and a divisor whose members are all positive, uses one integer n: the floor of lower(x) / b, where b is the lower bound of y if lower(x) is negative and the upper bound otherwise. When no a - n * v overflows for members a of x and v of y, the call returns exactly the set of all a - n * v; its lower bound is lower(x) mod b, hence at least 0 and less than b. Otherwise the behaviour is undefined. A dividend without negative members never overflows. A negative one can overflow although all the remainders are ints, and with a negative divisor the rounding of the test is not downward and the remainder can be larger than the divisor.", "quantifier": "all intervals of ints and ints with a positive divisor, checking policies, evaluation orders, modes", "why_tests_cant": "The test makes nine calls with small numbers; sign changes and the ends of the range matter.", "anchors": ["test/fmod.cpp: my_rounded_arith main", "include/boost/numeric/interval/arith2.hpp: fmod", "include/boost/numeric/interval/arith.hpp: operator* operator-"]}
{"id": "C87", "title": "Numbers, mixed and interval calls are nested; square, sqrt and the constants fit together", "statement": "For + - * and / (no zero in the divisor) and finite numbers u in a, v in b: add<I>(u, v) is a subset of a + v and of u + b, and these are subsets of a + b, as answered by subset(). square(a) and a * a have the same upper bound; their lower bounds are equal, or the one of a * a is at most zero and the one of square(a) is zero. abs(a) is a subset of square(sqrt(a)) for every a that contains the magnitudes of its members (not for others, such as [-3,2]) and of sqrt(square(a)) for every a. For float, double and long double 2 * pi_half equals pi and 2 * pi equals pi_twice.", "quantifier": "all formats, policies, modes, evaluation orders, valid intervals (unbounded ones included), finite numbers in them", "why_tests_cant": "The tests try a grid of 67 intervals and a few literals, with one policy and in one mode.", "anchors": ["test/test_float.cpp: test_binary", "test/mul.cpp: test_square test_sqrt", "test/pi.cpp", "include/boost/numeric/interval/arith.hpp", "include/boost/numeric/interval/arith2.hpp: square sqrt", "include/boost/numeric/interval/utility.hpp: subset equal abs", "include/boost/numeric/interval/constants.hpp", "include/boost/numeric/interval/arith3.hpp"]}
{"id": "C88", "title": "Sums and differences on a symbolic base type: the right bounds, rounded once, in the right direction", "statement": "On intervals over the formulas of test/add.cpp, with rounded_arith_std and with rounded_arith_opp: a + b, a + n, n + a, a - b, a - n, n - a, -a, a += b, a += n, a -= b and a -= n (the operand may be a itself or one of its bounds) return bounds that are, whatever the variables stand for and whatever function the upward rounding is, if the downward rounding is its mirror image, one downward rounding of the exact sum or difference of the right bounds and one upward rounding of the other one. For operands that are variables the bounds are the very formulas the test expects. The formulas of the two policies may differ in general.", "quantifier": "all operand formulas, variables, meanings of the variables and of the rounding function, both rounding policies, evaluation orders, rounding modes at the call", "why_tests_cant": "The test compares formulas for the variables 0 to 3 only; other operands are simplified differently.", "anchors": ["test/add.cpp", "include/boost/numeric/interval/arith.hpp: operator+ operator- operator+= operator-=", "include/boost/numeric/interval/rounded_arith.hpp: rounded_arith_std rounded_arith_opp", "include/boost/numeric/interval/rounding.hpp: save_state"]}
{"id": "C89", "title": "Comparison operators for any ordered base type and any checking policy of the user", "statement": "The base type is any type whose < <= == are those of a total order; the two operands may have different checking policies, whose is_empty and is_nan are any tests. If a policy takes an operand for the empty interval, or a number for a NaN, then the default operators and those of the namespaces certain, possible, lexicographic and tribool throw comparison_error. Otherwise, for operands with lower <= upper: the default operators return true if all pairs of members satisfy the relation, false if none does, and throw if some do and some do not; certain asks for all pairs, possible for some pair, tribool has three answers, lexicographic compares the lower bounds and then the upper bounds. In namespace set intervals are compared by inclusion of their sets of members, the empty one included, and every comparison with a number throws. The functions cerXX (posXX) of compare/explicit.hpp ask for all pairs (some pair), without any check. The policy of test/cmp_exn.cpp is such a policy.", "quantifier": "all ordered base types, checking policies, intervals, numbers and operators; rounding modes", "why_tests_cant": "The test tries one empty interval, one other interval and two numbers of type int with one policy.", "anchors": ["test/cmp_exn.cpp", "include/boost/numeric/interval/interval.hpp: operator< operator<= operator> operator>= operator== operator!=", "include/boost/numeric/interval/compare/certain.hpp", "include/boost/numeric/interval/compare/possible.hpp", "include/boost/numeric/interval/compare/lexicographic.hpp", "include/boost/numeric/interval/compare/tribool.hpp", "include/boost/numeric/interval/compare/set.hpp", "include/boost/numeric/interval/compare/explicit.hpp", "include/boost/numeric/interval/detail/test_input.hpp"]}
{"id": "C90", "title": "Set functions for any ordered base type and any checking policy of the user", "statement": "The base type is any type whose < <= == are those of a total order; is_empty and is_nan of the checking policy are any tests. in, zero_in, overlap and singleton answer the questions their names say about the members of the operands (none for an interval the policy takes for empty; false for a number it takes for a NaN). intersect returns the interval of the common members, or what empty() returns when there are none. hull returns the least interval that contains both operands, ignoring empty intervals and NaNs, and empty() when nothing is left. max and min return the least interval that contains the larger (smaller) of a and b for all members a and b, or empty().", "quantifier": "all ordered base types, checking policies, intervals and numbers; rounding modes", "why_tests_cant": "A test has one base type and one policy.", "anchors": ["include/boost/numeric/interval/utility.hpp: in zero_in overlap singleton intersect hull max min", "include/boost/numeric/interval/interval.hpp: hull empty", "include/boost/numeric/interval/detail/test_input.hpp"]}
{"id": "C91", "title": "examples/rational.cpp: with rational bounds the printed intervals are exact", "statement": "The program of examples/rational.cpp, with any rational numbers p <= q, q not 0, and any c <= d in place of its constants, prints for z exactly the interval of the products b q, c <= b <= d, and for a exactly the interval of the values (x + b - p) / q, p <= x <= q, c <= b <= d.", "quantifier": "all rational numbers p, q, c, d; checking policies; evaluation orders", "why_tests_cant": "The example has one set of constants.", "anchors": ["examples/rational.cpp", "include/boost/numeric/interval/arith.hpp: operator+= operator-= operator*= operator/=", "include/boost/numeric/interval/rounded_arith.hpp: rounded_arith_exact"]}
{"id": "C92", "title": "Every interval is empty or ordered, for any ordered base type and checking policy", "statement": "Take a base type with a total preorder as its <=, and a checking policy whose is_nan answers and which takes its own empty bounds for the empty interval. Then whatever sequence of constructions, assignments (also from an interval's own bounds, and from intervals with another policy) and calls of empty, hull, intersect, max and min a program makes, each call returns, and every interval it holds is one the policy takes for empty or has lower() <= upper(). The bounds after a construction or an assignment are the arguments, or the policy's empty bounds when an argument is taken for a NaN, two numbers are not in order, or the source is empty.", "quantifier": "all ordered base types, coherent checking policies, histories of calls and arguments, aliased or not; rounding modes", "why_tests_cant": "A test has one base type, one policy and one history.", "anchors": ["include/boost/numeric/interval/interval.hpp: interval assign operator= set_empty set hull empty", "include/boost/numeric/interval/utility.hpp: intersect hull max min", "include/boost/numeric/interval/detail/test_input.hpp"]}
