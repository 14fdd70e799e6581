(** * test/fmod.cpp: a rounding policy of the user for ints

    fmod on intervals of ints, with the rounding of the test.  my_rounded_arith
    only has the functions fmod calls; here the others are those of
    rounded_arith_exact and are never called. *)

From Coq Require Import ZArith Bool.
From Verif Require Import Outcome Base Checking Interval Utility Arith Arith2 FloatNum ExactNum.
Local Open Scope Z_scope.

(** test/fmod.cpp:25-28: int q = x / y; return (x % y < 0) ? (q - 1) : q; *)
Definition fm_div_down (x y : Z) : M Z := fun s =>
  if y =? 0 then (UB, s)
  else if in_int (Z.quot x y)
  then (if Z.rem x y <? 0 then int_res (Z.quot x y - 1) else Ok (Z.quot x y), s)
  else (UB, s).

(** test/fmod.cpp:20-30 *)
Definition fm_arith : arith int_num :=
  let A := arith_exact int_num in {|
  ar_init := ar_init A;
  add_down := add_down A; add_up := add_up A;
  sub_down := sub_down A; sub_up := sub_up A;
  mul_down := mul_down A; mul_up := mul_up A;
  div_down := fm_div_down; div_up := div_up A;
  ar_median := ar_median A;
  sqrt_down := sqrt_down A; sqrt_up := sqrt_up A;
  int_down := fun x => ret x; int_up := int_up A;
  conv_down := conv_down A; conv_up := conv_up A
|}.

(** test/fmod.cpp:36: change_rounding<interval<int>, save_state_nothing<my_rounded_arith> > *)
Definition fm_pol (debug : bool) (c : ckind) (ord : site -> bool) : policy int_num := {|
  p_prot := SaveNothing;
  p_ctl := control_default int_num;
  p_ar := fm_arith;
  p_ck := gchecking int_num debug c;
  p_ord := ord
|}.
