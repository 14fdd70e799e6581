(** * test/cmp_exn.cpp: a checking policy of the user for ints *)

From Coq Require Import ZArith Bool.
From Verif Require Import Outcome Base Checking Interval ExactNum.
Local Open Scope Z_scope.

(** test/cmp_exn.cpp:18-25: a negative int is a NaN and [-1,-1] is the empty interval.
    pos_inf and neg_inf do not exist and are never called. *)
Definition cx_checking : checking int_num := {|
  ck_pos_inf := fun s => (UB, s);
  ck_neg_inf := fun s => (UB, s);
  ck_nan := ret (-1 : T int_num);
  ck_is_nan := fun x : T int_num => ret (x <? 0);
  ck_empty_lower := ret (-1 : T int_num);
  ck_empty_upper := ret (-1 : T int_num);
  ck_is_empty := fun l u : T int_num => (l =? -1) && (u =? -1)
|}.
(** test/cmp_exn.cpp:27-32: the rounding policy is an empty class, so no function
    that rounds can be called. *)
Definition cx_pol (ord : site -> bool) : policy int_num := {|
  p_prot := SaveNothing;
  p_ctl := control_default int_num;
  p_ar := arith_exact int_num;
  p_ck := cx_checking;
  p_ord := ord
|}.
