(** * Programs of the examples directory *)

From Coq Require Import ZArith Bool List.
From Verif Require Import Outcome Base Checking Interval Utility Arith.
Import ListNotations.
Local Open Scope Z_scope.

Section Examples.
Context {N : num} (P : policy N).
Notation I := (itv N).
Notation Pu := (unprotect P).

(** An object of the interval type used where one of the unprotected type is
    expected: the converting constructor (interval.hpp:179-184), or the object
    itself when the two types are the same (rounding.hpp:67-71, 87-91). *)
Definition to_unprotected (x : I) : M I :=
  match p_prot P with
  | Save => ctor_policy Pu P x
  | _ => ret x
  end.

(** p[i]; an index outside of the array is undefined behaviour. *)
Definition array_at (p : list I) (i : Z) : M I :=
  if i <? 0 then fail UB else
  match nth_error p (Z.to_nat i) with Some v => ret v | None => fail UB end.

(** The loop of examples/horner.cpp:25-27 (doc/rounding.htm:531-534), [fuel]
    being the number of remaining iterations, i + 1.  The two operands of + are
    evaluated in either order. *)
Fixpoint horner_loop (p : list I) (a : I) (fuel : nat) (y : I) : M I :=
  match fuel with
  | O => ret y
  | S i =>
      let! yc := args2 (p_ord P (H_user, 26)) (op_mul Pu y a)
                       (let! pi := array_at p (Z.of_nat i) in to_unprotected pi) in
      let! y' := op_add Pu (fst yc) (snd yc) in
      horner_loop p a i y'
  end.
(** examples/horner.cpp:15-31; i goes from n - 2 down to 0. *)
Definition horner (x : I) (p : list I) (n : Z) : M I :=
  with_rnd P (
    let! a := to_unprotected x in
    let! pn := array_at p (n - 1) in
    let! y := to_unprotected pn in
    let! y' := horner_loop p a (Z.to_nat (n - 1)) y in
    ctor_back P y').

End Examples.
