(** * examples/newton-raphson.cpp

    Both functions newton_raphson, for the unprotected type of an interval<double>
    policy [P] (the program calls them inside a rounding object, lines 131 and
    139).  The arrays of the program are lists; memory exhaustion is not modelled.
    The stack [l] has its back() at the head of the list. *)

From Coq Require Import ZArith Bool List.
From Flocq Require Import Core BinarySingleNaN.
From Verif Require Import Outcome Base Checking Interval Utility Arith Arith2 FloatNum.
Import ListNotations.
Local Open Scope Z_scope.

Section Newton.
Context {p : platform} (P : policy (fnum p)).
Notation N := (fnum p).
Notation I := (itv N).
Notation ord l := (p_ord P (H_user, l)).

(** A floating literal whose value is m * 2^e. *)
Definition literal (m e : Z) : T N :=
  binary_normalize (prec (p_T p)) (emax (p_T p)) (fmt_P0 _) (fmt_PE _) mode_NE m e false.
(** examples/newton-raphson.cpp:23: the double nearest to 1e-10 *)
Definition max_width : T N := literal 7737125245533627 (-86).
(** examples/newton-raphson.cpp:24: 0.75 *)
Definition alpha : T N := literal 3 (-2).

(** a * b, a and b evaluated in either order *)
Definition mul_exprs (o : bool) (a b : M I) : M I :=
  let! v := args2 o a b in op_mul P (fst v) (snd v).

(** examples/newton-raphson.cpp:18-19 *)
Definition nr_f (x : I) : M I :=
  mul_exprs (ord 194) (mul_exprs (ord 193) (mul_exprs (ord 192) (mul_exprs (ord 191)
    (ret x) (op_sub_in P x (literal 1 0))) (op_sub_in P x (literal 2 0)))
    (op_sub_in P x (literal 3 0))) (op_sub_in P x (literal 4 0)).
(** examples/newton-raphson.cpp:20-21 *)
Definition nr_f_diff (x : I) : M I :=
  let! a := op_mul_ni P (literal 5 0) x in
  let! a := op_sub_in P a (literal 40 0) in
  let! a := op_mul P a x in
  let! a := op_add_in P a (literal 105 0) in
  let! a := op_mul P a x in
  let! a := op_sub_in P a (literal 100 0) in
  let! a := op_mul P a x in
  op_add_in P a (literal 24 0).

(** width(x1) > alpha * width(x): the right-hand side is an expression on the
    base type, rounded in the current mode and not stored. *)
Definition wider (x1 x : I) : M bool :=
  let! v := args2 (ord 66) (width P x1)
              (let! w := width P x in e_mul (n_load N alpha) (n_load N w)) in
  ret (x_lt N (snd v) (n_load N (fst v))).

(** One iteration returns what it pushes on [l] (in order) and what it pushes on
    [res]. *)
Notation pushes := (list I * list I)%type.

(** examples/newton-raphson.cpp:65-71 and 108-113, the same text in both methods;
    [used] makes x2 from p.second. *)
Definition newton_keep {A} (used : I -> A) (x x1 : I) (x2 : A) : M (pushes * A) :=
  let! w1 := width P x1 in
  if n_lt N w1 max_width then ret (([], [x1]), x2)
  else
    let! b := wider x1 x in
    if b then
      let! h := bisect P x in
      let! v := nr_f (fst h) in
      ret ((if zero_in P v then [fst h] else [], []), used (snd h))
    else ret (([x1], []), x2).
(** examples/newton-raphson.cpp:72-75, and 114-117 for an x2 that is not empty *)
Definition newton_rest (lr : pushes) (x2 : option I) : M pushes :=
  match x2 with
  | None => ret lr
  | Some x2 =>
      let! v := nr_f x2 in
      if zero_in P v then
        let! w := width P x2 in
        if n_lt N w max_width then ret (fst lr, snd lr ++ [x2])
        else ret (fst lr ++ [x2], snd lr)
      else ret lr
  end.

(** ** First method; x2 is [None] when x2_used is false *)

(** examples/newton-raphson.cpp:43-52 *)
Definition newton1_cut (x : I) : M (I * option I) :=
  let! xx := median P x in
  let! vf := (let! i := ctor_num P xx in nr_f i) in
  let! vd := nr_f_diff x in
  if zero_in P vf && zero_in P vd then
    let! w := i_whole P in ret (w, None)
  else
    let! zb := division_part1 P vf vd in
    let! x1 := op_sub_ni P xx (fst zb) in
    if snd zb then
      let! z2 := division_part2 P vf vd true in
      let! x2 := op_sub_ni P xx z2 in
      ret (x1, Some x2)
    else ret (x1, None).
(** examples/newton-raphson.cpp:53-59; [None] is the continue of line 55 *)
Definition newton1_clip (x : I) (c : I * option I) : M (option (I * option I)) :=
  let (x1, x2) := c in
  if overlap P x1 x then
    let! y1 := intersect P x x1 in
    match x2 with
    | None => ret (Some (y1, None))
    | Some x2 =>
        if overlap P x2 x then let! y2 := intersect P x x2 in ret (Some (y1, Some y2))
        else ret (Some (y1, None))
    end
  else
    match x2 with
    | Some x2 => ret (Some (x2, None))
    | None => ret None
    end.
(** examples/newton-raphson.cpp:60-64 *)
Definition newton1_sort (c : I * option I) : M (option (I * option I)) :=
  let (x1, x2) := c in
  let! d := match x2 with
            | None => ret (x1, None)
            | Some x2 =>
                let! w := args2 (ord 60) (width P x2) (width P x1) in
                if n_gt (fst w) (snd w) then ret (x2, Some x1) else ret (x1, Some x2)
            end in
  let (x1, x2) := d in
  let! v := nr_f x1 in
  if zero_in P v then ret (Some (x1, x2))
  else match x2 with
       | Some x2 => ret (Some (x2, None))
       | None => ret None
       end.
(** examples/newton-raphson.cpp:40-75 *)
Definition newton1_step (x : I) : M pushes :=
  let! c := newton1_cut x in
  let! c := newton1_clip x c in
  match c with
  | None => ret ([], [])
  | Some c =>
      let! c := newton1_sort c in
      match c with
      | None => ret ([], [])
      | Some (x1, x2) =>
          let! d := newton_keep Some x x1 x2 in newton_rest (fst d) (snd d)
      end
  end.

(** ** Second method *)

(** examples/newton-raphson.cpp:92-102 *)
Definition newton2_cut (x : I) : M (I * I) :=
  let! xx := median P x in
  let! vf := (let! i := ctor_num P xx in nr_f i) in
  let! vd := nr_f_diff x in
  if zero_in P vf && zero_in P vd then
    let! e := i_empty P in ret (x, e)
  else
    let! zb := division_part1 P vf vd in
    let! y1 := op_sub_ni P xx (fst zb) in
    let! x1 := intersect P x y1 in
    let! z2 := division_part2 P vf vd (snd zb) in
    let! y2 := op_sub_ni P xx z2 in
    let! x2 := intersect P x y2 in
    ret (x1, x2).
(** examples/newton-raphson.cpp:103-107; [None] is the continue of line 106.  The
    right-hand side of || is only evaluated when x1 is not empty. *)
Definition newton2_sort (c : I * I) : M (option (I * I)) :=
  let! w := args2 (ord 103) (width P (snd c)) (width P (fst c)) in
  let (x1, x2) := if n_gt (fst w) (snd w) then (snd c, fst c) else c in
  let! bad := (if u_empty P x1 then ret true
               else let! v := nr_f x1 in ret (negb (zero_in P v))) in
  if bad : bool then
    if negb (u_empty P x2) then let! e := i_empty P in ret (Some (x2, e))
    else ret None
  else ret (Some (x1, x2)).
(** examples/newton-raphson.cpp:90-117 *)
Definition newton2_step (x : I) : M pushes :=
  let! c := newton2_cut x in
  let! c := newton2_sort c in
  match c with
  | None => ret ([], [])
  | Some (x1, x2) =>
      let! d := newton_keep (fun y => y) x x1 x2 in
      newton_rest (fst d) (if u_empty P (snd d) then None else Some (snd d))
  end.

(** The while loop, with a budget of iterations: examples/newton-raphson.cpp:39-77
    and 89-119. *)
Fixpoint newton_loop (step : I -> M pushes) (fuel : nat) (l res : list I) : M (list I) :=
  match fuel with
  | O => fail NoFuel
  | S fuel =>
      match l with
      | [] => ret res
      | x :: l' =>
          let! lr := step x in
          newton_loop step fuel (rev (fst lr) ++ l') (res ++ snd lr)
      end
  end.
(** examples/newton-raphson.cpp:35-78 *)
Definition newton1 (fuel : nat) (xs : I) : M (list I) := newton_loop newton1_step fuel [xs] [].
(** examples/newton-raphson.cpp:85-120 *)
Definition newton2 (fuel : nat) (xs : I) : M (list I) := newton_loop newton2_step fuel [xs] [].
End Newton.
Arguments literal {p} m e.
Arguments max_width {p}.
Arguments alpha {p}.
