(** * Integer types narrower than int as sources of conversions *)

From Coq Require Import ZArith.
From Flocq Require Import BinarySingleNaN.
From Verif Require Import Outcome Base FloatNum.
Local Open Scope Z_scope.

(** signed char, unsigned char, short, unsigned short, bool and char: in
    conv_down of rounded_arith.hpp:93 the operand of unary minus is promoted to
    int, which represents every negated value, so that nothing wraps and nothing
    is undefined.  The negated value has type int: the simplification is that
    both are integers of Z here.  The two-bound constructor, interval.hpp:156-165,
    compares the promoted values. *)
Definition src_narrow (p : platform) : source (fnum p) := {|
  U := Z;
  s_opp := fun v => Ok (- v);
  s_toT := fun m v => Ok (f_of_Z (p_T p) m v) : outcome (T (fnum p));
  s_le := Z.leb;
  s_ne := fun v w => negb (v =? w)
|}.
