(** * Further arithmetic (arith2.hpp) *)

From Coq Require Import ZArith Bool.
From Verif Require Import Outcome Base Checking Interval Utility Arith.
Local Open Scope Z_scope.

Section Arith2.
Context {N : num} (P : policy N).
Notation C := (p_ck P).
Notation R := (p_ar P).
Notation I := (itv N).
Notation ord l := (p_ord P (H_arith2, l)).
(** unprotect<interval<T, Policies> >::type *)
Notation Pu := (unprotect P).

(** arith2.hpp:31-42.  The result has the unprotected type and is converted
    back by the constructor of interval.hpp:179-184. *)
Definition fmod (x y : I) : M I :=
  if test_input_ii P x y then i_empty P else
  with_rnd P (
    let yb := if is_neg (low x) then low y else up y in
    let! q := div_down R (low x) yb in
    let! n := int_down R q in
    let! p := op_mul_ni Pu n y in
    let! z := op_sub Pu x p in
    ctor_back P z).
(** arith2.hpp:44-53 *)
Definition fmod_in (x : I) (y : T N) : M I :=
  let! b := test_input_in P x y in
  if b then i_empty P else
  with_rnd P (
    let! q := div_down R (low x) y in
    let! n := int_down R q in
    let! iy := ctor_num Pu y in
    let! p := op_mul_ni Pu n iy in
    let! z := op_sub Pu x p in
    ctor_back P z).
(** arith2.hpp:55-65 *)
Definition fmod_ni (x : T N) (y : I) : M I :=
  let! b := test_input_ni P x y in
  if b then i_empty P else
  with_rnd P (
    let yb := if is_neg x then low y else up y in
    let! q := div_down R x yb in
    let! n := int_down R q in
    let! p := op_mul_ni Pu n y in
    let! z := op_sub_ni Pu x p in
    ctor_back P z).

(** arith2.hpp:69-90; returns the interval and the out-parameter b. *)
Definition division_part1 (x y : I) : M (I * bool) :=
  let nb (m : M I) := let! z := m in ret (z, false) in
  if test_input_ii P x y then nb (i_empty P) else
  if zero_in P y then
    if negb (is_zero (low y)) then
      if negb (is_zero (up y)) then div_zero_part1 P x y
      else nb (div_negative P x (low y))
    else
      if negb (is_zero (up y)) then nb (div_positive P x (up y))
      else nb (i_empty P)
  else nb (div_non_zero P x y).
(** arith2.hpp:92-98 *)
Definition division_part2 (x y : I) (b : bool) : M I :=
  if negb b then i_empty P else div_zero_part2 P x y.

(** arith2.hpp:100-122 *)
Definition multiplicative_inverse (x : I) : M I :=
  if test_input_i P x then i_empty P else
  with_rnd P (
    if zero_in P x then
      if negb (is_zero (low x)) then
        if negb (is_zero (up x)) then i_whole P
        else mk_args (ord 114) (ck_neg_inf C) (div_up R one (low x))
      else
        if negb (is_zero (up x))
        then mk_args (ord 117) (div_down R one (up x)) (ck_pos_inf C)
        else i_empty P
    else mk_args (ord 121) (div_down R one (up x)) (div_up R one (low x))).

(** The square-and-multiply loop shared by pow_dn and pow_up, on the value of
    [pwr] after the first shift: while (pwr > 0) { x = x*x; if (pwr & 1)
    y = x*y; pwr >>= 1; }.  arith2.hpp:132-136, 146-150 *)
Fixpoint pow_loop (mul : T N -> T N -> M (T N)) (x y : T N) (pwr : positive) : M (T N) :=
  let! x' := mul x x in
  match pwr with
  | xH => mul x' y
  | xO p => pow_loop mul x' y p
  | xI p => let! y' := mul x' y in pow_loop mul x' y' p
  end.
Definition pow_aux (mul : T N -> T N -> M (T N)) (x_ : T N) (pwr : Z) : M (T N) :=
  let y := if Z.odd pwr then x_ else one in
  match Z.shiftr pwr 1 with
  | Zpos p => pow_loop mul x_ y p
  | _ => ret y
  end.
(** arith2.hpp:126-138 *)
Definition pow_dn (x : T N) (pwr : Z) : M (T N) := pow_aux (mul_down R) x pwr.
(** arith2.hpp:140-152 *)
Definition pow_up (x : T N) (pwr : Z) : M (T N) := pow_aux (mul_up R) x pwr.

(** The range of int (32-bit two's complement). *)
Definition int_min : Z := -2147483648.
Definition int_max : Z := 2147483647.

(** arith2.hpp:177-194: the part of pow for a positive exponent. *)
Definition pow_pos (x : I) (pwr : Z) : M I :=
  with_rnd P (
    if is_neg (up x) then
      let! nu := neg (up x) in
      let! yl := pow_dn nu pwr in
      let! nl := neg (low x) in
      let! yu := pow_up nl pwr in
      if Z.odd pwr
      then mk_args (ord 183) (neg yu) (neg yl)
      else ret (mk yl yu)
    else if is_neg (low x) then
      if Z.odd pwr then
        mk_args (ord 188)
          (let! nl := neg (low x) in let! t := pow_up nl pwr in neg t)
          (pow_up (up x) pwr)
      else
        let! nl := neg (low x) in
        let! t := pow_up (std_max nl (up x)) pwr in
        ret (mk zero t)
    else
      mk_args (ord 193) (pow_dn (low x) pwr) (pow_up (up x) pwr)).

(** arith2.hpp:157-195.  The recursive call at line 175 is made with the
    positive exponent -pwr, so it is unfolded once; -pwr overflows for the most
    negative int. *)
Definition pow (x : I) (pwr : Z) : M I :=
  if test_input_i P x then i_empty P else
  if pwr =? 0 then
    if is_zero (low x) && is_zero (up x) then i_empty P
    else ctor_num P one
  else if pwr <? 0 then
    if pwr =? int_min then fail UB
    else let! z := pow_pos x (- pwr) in multiplicative_inverse z
  else pow_pos x pwr.

(** arith2.hpp:197-206 *)
Definition i_sqrt (x : I) : M I :=
  if test_input_i P x || is_neg (up x) then i_empty P else
  with_rnd P (
    let! l := (if negb (is_pos (low x)) then ret zero else sqrt_down R (low x)) in
    let! u := sqrt_up R (up x) in
    ret (mk l u)).

(** arith2.hpp:208-223.  In the last case [-xl > xu] compares expressions. *)
Definition square (x : I) : M I :=
  if test_input_i P x then i_empty P else
  with_rnd P (
    let xl := low x in let xu := up x in
    if is_neg xu then mk_args (ord 218) (mul_down R xu xu) (mul_up R xl xl)
    else if is_pos xl then mk_args (ord 220) (mul_down R xl xl) (mul_up R xu xu)
    else
      let! nx := e_opp (n_load N xl) in
      let! t := (if x_lt N (n_load N xu) nx then mul_up R xl xl else mul_up R xu xu) in
      ret (mk zero t)).

End Arith2.

(** ** nth_root: its helpers are instantiated with the unprotected interval type *)
Section Roots.
Context {N : num}.
Notation I := (itv N).

(** One iteration of the loop of root_aux, arith2.hpp:235-236.  The operands of
    the binary minus/division and the arguments of intersect are evaluated in
    an unspecified order; every sub-expression is a call. *)
Definition root_step (Q : policy N) (tk x : T N) (k : Z) (y : I) : M I :=
  let! y0 := median Q y in
  let! d := args2 (p_ord Q (H_arith2, 236))
     (let! p := pow Q (mk y0 y0) k in op_sub_in Q p x)
     (let! p := pow Q y (k - 1) in op_mul_ni Q tk p) in
  let! q := op_div Q (fst d) (snd d) in
  let! z := op_sub_ni Q y0 q in
  intersect Q y z.

(** arith2.hpp:234-239, with a budget of iterations. *)
Fixpoint root_loop (fuel : nat) (Q : policy N) (tk x : T N) (k : Z) (y : I) : M I :=
  match fuel with
  | O => fail NoFuel
  | S fuel' =>
      let! yy := root_step Q tk x k y in
      if equal Q y yy then ret y else root_loop fuel' Q tk x k yy
  end.

(** arith2.hpp:228-240 *)
Definition root_aux (fuel : nat) (Q : policy N) (x : T N) (k : Z) : M I :=
  let! tk := under_mode (fun m => n_of_int N m k) in
  root_loop fuel Q tk x k (mk one x).

(** arith2.hpp:242-252.  [Q] is the policy of the template argument I. *)
Definition root_aux_dn (fuel : nat) (Q : policy N) (x : T N) (k : Z) : M (T N) :=
  with_rnd Q (
    if n_gt x one then let! y := root_aux fuel Q x k in ret (low y)
    else if n_eq N x one then ret one
    else
      let! d := div_up (p_ar Q) one x in
      let! y := root_aux fuel Q d k in
      div_down (p_ar Q) one (up y)).
(** arith2.hpp:254-264 *)
Definition root_aux_up (fuel : nat) (Q : policy N) (x : T N) (k : Z) : M (T N) :=
  with_rnd Q (
    if n_gt x one then let! y := root_aux fuel Q x k in ret (up y)
    else if n_eq N x one then ret one
    else
      let! d := div_down (p_ar Q) one x in
      let! y := root_aux fuel Q d k in
      div_up (p_ar Q) one (low y)).

(** arith2.hpp:269-299.  Note that no rounding object is constructed here;
    [debug] tells whether assert is compiled in. *)
Definition nth_root (P : policy N) (debug : bool) (fuel : nat) (x : I) (k : Z) : M I :=
  if test_input_i P x then i_empty P else
  assert_ debug (0 <? k) ;;;
  if k =? 1 then ret x else
  if negb (is_pos (up x)) then
    if is_zero (up x) then
      if negb (Z.odd k) || is_zero (low x) then ret (mk zero zero)
      else
        let! nl := neg (low x) in
        let! t := root_aux_up fuel (unprotect P) nl k in
        let! l := neg t in ret (mk l zero)
    else if negb (Z.odd k) then i_empty P
    else
      mk_args (p_ord P (H_arith2, 287))
        (let! nl := neg (low x) in let! t := root_aux_up fuel (unprotect P) nl k in neg t)
        (let! nu := neg (up x) in let! t := root_aux_dn fuel (unprotect P) nu k in neg t)
  else
    let! u := root_aux_up fuel (unprotect P) (up x) k in
    if negb (is_pos (low x)) then
      if negb (Z.odd k) || is_zero (low x) then ret (mk zero u)
      else
        let! nl := neg (low x) in
        let! t := root_aux_up fuel (unprotect P) nl k in
        let! l := neg t in ret (mk l u)
    else
      let! l := root_aux_dn fuel (unprotect P) (low x) k in ret (mk l u).
End Roots.

(** ** Number functions (arith3.hpp) *)
Section Arith3.
Context {N : num} (P : policy N).
Notation R := (p_ar P).
Notation ord l := (p_ord P (H_arith3, l)).

(** arith3.hpp:25-33 *)
Definition n_add (x y : T N) : M (itv N) :=
  let! b := test_input_nn P x y in
  if b then i_empty P else
  with_rnd P (mk_args (ord 32) (add_down R x y) (add_up R x y)).
(** arith3.hpp:35-43 *)
Definition n_sub (x y : T N) : M (itv N) :=
  let! b := test_input_nn P x y in
  if b then i_empty P else
  with_rnd P (mk_args (ord 42) (sub_down R x y) (sub_up R x y)).
(** arith3.hpp:45-53 *)
Definition n_mul (x y : T N) : M (itv N) :=
  let! b := test_input_nn P x y in
  if b then i_empty P else
  with_rnd P (mk_args (ord 52) (mul_down R x y) (mul_up R x y)).
(** arith3.hpp:55-63 *)
Definition n_div (x y : T N) : M (itv N) :=
  let! b := test_input_nn P x y in
  if b || is_zero y then i_empty P else
  with_rnd P (mk_args (ord 62) (div_down R x y) (div_up R x y)).
End Arith3.
