(** * examples/rational.cpp *)

From Coq Require Import ZArith QArith.
From Verif Require Import Outcome Base Checking Interval Utility Arith Transc ExactNum.

(** rational.cpp:34-40, with any numbers for 2/3, 3/4, 4 and 5: the objects z and a at
    the end.  boost::rational<int> is modelled by Q, without overflow. *)
Definition rational_main (P : policy (exact_num Q_type)) (p q c d : T (exact_num Q_type)) :
    M (itv (exact_num Q_type) * itv (exact_num Q_type)) :=
  let! z := ctor_num2 P c d in
  let! a := ctor_num2 P p q in
  let! a := local (m_add P (IVal z)) a in
  let! z := local (m_mul_n P (NVal q)) z in
  let! a := local (m_sub_n P (NVal p)) a in
  let! a := local (m_div_n P (NVal q)) a in
  ret (z, a).
