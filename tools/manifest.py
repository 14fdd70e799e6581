#!/usr/bin/env python3
"""Writes MANIFEST.json from the table below; checks that every theorem exists
and that its name follows the _partial/_refuted convention."""
import json, re, glob, os
root = os.path.dirname(os.path.dirname(os.path.abspath(__file__)))
R = {}
def claim(pid, status, theorems, note=""):
    R[pid] = {"property": pid, "status": status, "theorems": theorems.split(), "note": note}

claim("C01", "proved", "C01_add_tightest")
claim("C02", "proved", "C02_sub_tightest")
claim("C03", "proved", "C03_neg_exact")
claim("C04", "proved", "C04_mul_tightest")
claim("C05", "partial", "C05_div_encloses_partial C05_div_by_zero_empty C05_div_tightest_refuted",
  "Inclusion is proved always, tightness except when the numerator is [a,0] with a < 0 and zero is a bound of the divisor (division_loses): [-1,0] / [0,3] gives the whole line (refuted). Division by [0,0] gives the empty interval.")
claim("C06", "proved", "C06_two_part_division C06_parts_sides C06_zero_divisor")
claim("C08", "partial", "C08_compound_interval C08_compound_number_partial C08_add_number_refuted",
  "Everything proved except x += NaN on an empty x under checking_catch_nan, where the code behaves differently from x + NaN (refuted).")
claim("C09", "proved", "C09_square_tightest C09_square_refines_product")
claim("C10", "proved", "C10_pow_positive_encloses C10_pow_negative_encloses C10_pow_negative_zero_empty")
claim("C11", "partial", "C11_pow_zero_is_one_partial C11_pow_zero_is_one_refuted",
  "pow([0,0],0) is empty in the code; proved for every other valid interval.")
claim("C12", "partial", "C12_pow_total_partial C12_pow_total_refuted",
  "pow(x, INT_MIN) negates INT_MIN (undefined); total for all other exponents.")
claim("C13", "proved", "C13_sqrt_tightest C13_sqrt_negative_empty")
claim("C14", "proved", "C14_inverse_tightest C14_inverse_zero_empty")
claim("C15", "proved", "C15_abs_exact C15_max_exact C15_min_exact C15_norm_least_upper_bound")
claim("C18", "partial", "C18_mode_restored_partial C18_call_mode_restored_partial C18_mode_restored_refuted",
  "Every program over every modelled call restores the mode; nth_root does not (refuted).")
claim("C20", "proved", "C20_std_opp_programs C20_std_opp_operations",
  "Conversions from floating-point types; for integer sources see C31.")
claim("C21", "proved", "C21_order_independent C21_mode_independent C21_subexpressions")
claim("C22", "partial", "C22_unprotected_equals_protected_partial C22_unprotected_equals_protected_refuted", "Proved for every program in which calls of fmod through the unprotected type have a non-empty result. False for fmod with an empty (NaN) result: the protected version converts it to the canonical empty interval, the unprotected one does not.")
claim("C30", "partial", "C30_assign_partial C30_assign_unordered C30_assign_refuted",
  "x.assign(a, x.lower()) reads the bound after it was overwritten (refuted); all other aliasings proved.")
claim("C32", "proved", "C32_empty C32_in C32_in_infinite C32_in_nan C32_zero_in C32_subset C32_proper_subset C32_overlap C32_singleton C32_equal C32_intersect C32_hull C32_hull_numbers C32_mixed C32_accessors")
claim("C33", "proved", "C33_width_least_upper_bound C33_width_empty")
claim("C36", "proved", "C36_widen_tightest")
claim("C49", "proved", "C49_wide_evaluation_directed")
claim("C52", "proved", "C52_number_functions_tightest")
exec(open(os.path.join(root, "tools", "claims_more.py")).read()) if os.path.exists(os.path.join(root, "tools", "claims_more.py")) else None

src = "\n".join(open(f).read() for f in glob.glob(root + "/rocq/theories/*.v"))
names = set(re.findall(r"^(?:Theorem|Lemma) (\w+)", src, re.M))
ids = [json.loads(l)["id"] for l in open(root + "/properties.jsonl")]
used = set()
for pid, c in R.items():
    assert pid in ids, pid
    for t in c["theorems"]:
        assert t in names, t
        used.add(t)
    bad = [t for t in c["theorems"] if t.endswith("_partial") or t.endswith("_refuted")]
    if c["status"] == "proved" and bad: print("WARNING: proved with", bad)
    if c["status"] == "partial" and not bad: print("WARNING: partial without marker", pid)
missing = [i for i in ids if i not in R]
print("claims:", len(R), "of", len(ids), "missing:", " ".join(missing))
thms = set(re.findall(r"^Theorem (C\d\d_\w+)", src, re.M))
print("theorems not in manifest:", sorted(thms - used))
json.dump({"claims": [R[i] for i in ids if i in R]}, open(root + "/MANIFEST.json", "w"), indent=1)
