(** * examples/findroot_demo.cpp

    The functions find_zeros and the three functions they are called with.  The
    list and the deque of the program are lists; memory exhaustion, the output
    stream and the progress report on std::cerr (lines 147-148, 150) are not
    modelled: the result of a call is the list of what it prints, in order.  The
    list [done] (lines 83, 122) is never used. *)

From Coq Require Import ZArith Bool List.
From Flocq Require Import Core BinarySingleNaN.
From Verif Require Import Outcome Base Checking Interval Utility Arith Arith2 FloatNum Transc ExNewton.
Import ListNotations.
Local Open Scope Z_scope.

Section Findroot.
Context {p : platform} (P : policy (fnum p)).
Notation N := (fnum p).
Notation I := (itv N).
Notation ord l := (p_ord P (H_user, l)).

(** ** One variable *)

(** examples/findroot_demo.cpp:90: the double nearest to 1e-6 *)
Definition root_width : T N := literal 4722366482869645 (-72).
(** examples/findroot_demo.cpp:88-98: what an iteration pushes on [l] and what it
    prints. *)
Definition find_step (f : I -> M I) (range : I) : M (list I * list I) :=
  let! v := f range in
  if zero_in P v then
    let! w := width P range in
    if n_lt N w root_width then ret ([], [range])
    else let! h := bisect P range in ret ([fst h; snd h], [])
  else ret ([], []).
(** examples/findroot_demo.cpp:85-99.  [fuel] bounds the iterations, which the
    program does not.  A and B: what the list holds and what is printed. *)
Fixpoint find_loop {A B} (step : A -> M (list A * list B)) (fuel : nat) (l : list A) (out : list B) : M (list B) :=
  match fuel with
  | O => fail NoFuel
  | S fuel =>
      match l with
      | [] => ret out
      | a :: l => let! lr := step a in find_loop step fuel (l ++ fst lr) (out ++ snd lr)
      end
  end.
(** examples/findroot_demo.cpp:80-100 *)
Definition find_zeros (fuel : nat) (f : I -> M I) (searchrange : I) : M (list I) :=
  find_loop (find_step f) fuel [searchrange] [].

(** ** Two variables *)

(** examples/findroot_demo.cpp:115: the double nearest to 5e-3 *)
Definition epsilon : T N := literal 5764607523034235 (-60).
(** A printed line: both medians, then the bounds of both intervals.
    (examples/findroot_demo.cpp:131-134; the two calls of median have no side
    effects that could tell their order.) *)
Record line := mk_line { m1 : T N; m2 : T N; l1 : T N; u1 : T N; l2 : T N; u2 : T N }.
(** examples/findroot_demo.cpp:130: [&&] evaluates its right-hand side only if
    the left-hand side is true. *)
Definition both_small (rect : I * I) : M bool :=
  let! w := width P (fst rect) in
  if n_lt N w epsilon then let! w := width P (snd rect) in ret (n_lt N w epsilon) else ret false.
(** examples/findroot_demo.cpp:128-146 *)
Definition find_step2 (f : I -> I -> M I) (rect : I * I) : M (list (I * I) * list line) :=
  let! v := f (fst rect) (snd rect) in
  if zero_in P v then
    let! b := both_small rect in
    if b then
      let! a := args2 (ord 131) (median P (fst rect)) (median P (snd rect)) in
      ret ([], [mk_line (fst a) (snd a) (low (fst rect)) (up (fst rect)) (low (snd rect)) (up (snd rect))])
    else
      let! w := args2 (ord 136) (width P (fst rect)) (width P (snd rect)) in
      if n_gt (fst w) (snd w) then
        let! h := bisect P (fst rect) in ret ([(fst h, snd rect); (snd h, snd rect)], [])
      else
        let! h := bisect P (snd rect) in ret ([(fst rect, fst h); (fst rect, snd h)], [])
  else ret ([], []).
(** examples/findroot_demo.cpp:125-149: [i] is an int that counts the iterations;
    incrementing it beyond INT_MAX is undefined. *)
Fixpoint count_loop {A B} (step : A -> M (list A * list B)) (fuel : nat) (i : Z) (l : list A) (out : list B) : M (list B) :=
  match fuel with
  | O => fail NoFuel
  | S fuel =>
      match l with
      | [] => ret out
      | a :: l =>
          let! lr := step a in
          if i =? int_max then fail UB
          else count_loop step fuel (i + 1) (l ++ fst lr) (out ++ snd lr)
      end
  end.
(** examples/findroot_demo.cpp:117-151 *)
Definition find_zeros2 (fuel : nat) (f : I -> I -> M I) (rx ry : I) : M (list line) :=
  count_loop (find_step2 f) fuel 1 [(rx, ry)] [].

(** ** The functions of the program

    [K] and [R]: the constants and the rounding class of the transcendental
    functions; [d] bounds the recursion of cos and sin (Transc.v).  The operands
    of an operator are evaluated in either order. *)
Context (K : consts N) (R : transc N) (d : nat).

(** examples/findroot_demo.cpp:70-78: sqrt(x*x-1.0) *)
Definition func1d_2 (x : I) : M I :=
  let! a := op_mul P x x in
  let! a := op_sub_in P a (literal 1 0) in
  i_sqrt P a.
(** examples/findroot_demo.cpp:61-68: sin(x)/(x*x+1.0) *)
Definition func1d (x : I) : M I :=
  let! v := args2 (ord 66) (t_sin K R d P x) (let! a := op_mul P x x in op_add_in P a (literal 1 0)) in
  op_div P (fst v) (snd v).
(** examples/findroot_demo.cpp:51-59: sin(x)*cos(y) - exp(x*y)/45.0 * (pow(x+y, 2)+100.0) - cos(sin(y))*y/4.0 *)
Definition func2d (x y : I) : M I :=
  let! v := args2 (ord 156)
    (let! v := args2 (ord 56)
       (let! v := args2 (ord 256) (t_sin K R d P x) (t_cos K R d P y) in op_mul P (fst v) (snd v))
       (let! v := args2 (ord 356)
          (let! a := op_mul P x y in let! a := t_exp R P a in op_div_in P a (literal 45 0))
          (let! a := op_add P x y in let! a := pow P a 2 in op_add_in P a (literal 100 0)) in
        op_mul P (fst v) (snd v)) in
     op_sub P (fst v) (snd v))
    (let! a := t_sin K R d P y in let! a := t_cos K R d P a in
     let! a := op_mul P a y in op_div_in P a (literal 4 0)) in
  op_sub P (fst v) (snd v).
End Findroot.
