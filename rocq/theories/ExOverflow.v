(** * test/overflow.cpp

    The program test_one of the library's test of overflow, for a policy [P] and
    any number of iterations. *)

From Coq Require Import ZArith Bool.
From Verif Require Import Outcome Base Checking Interval Utility Arith Arith2 Transc.

Section Overflow.
Context {N : num} (P : policy N).
Notation I := (itv N).

(** test/overflow.cpp:19 and 20: for (int i = 0; i < nb; i++) y *= v; the counter
    is a natural number. *)
Fixpoint ov_times (v : T N) (nb : nat) (y : I) : M I :=
  match nb with
  | O => ret y
  | S i => let! y := local (m_mul_n P (NVal v)) y in ov_times v i y
  end.

(** test/overflow.cpp:15-21: nb is 10000 in the code; the value is that of the
    expression in(x, y) under BOOST_TEST. *)
Definition ov_test_one (nb : nat) (x f : T N) : M bool :=
  let! y := ctor_num P x in
  let! q := ex_div N one f in
  let! g := e_store q in
  let! y := ov_times f nb y in
  let! y := ov_times g nb y in
  u_in P x y.
End Overflow.
