(** * Arithmetic operators (arith.hpp) and detail/division.hpp *)

From Coq Require Import ZArith Bool.
From Verif Require Import Outcome Base Checking Interval Utility.
Local Open Scope Z_scope.

Section Division.
Context {N : num} (P : policy N).
Notation C := (p_ck P).
Notation R := (p_ar P).
Notation I := (itv N).
Notation ord l := (p_ord P (H_division, l)).

(** detail/division.hpp:24-50 *)
Definition div_non_zero (x y : I) : M I :=
  with_rnd P (
    let xl := low x in let xu := up x in let yl := low y in let yu := up y in
    if is_neg xu then
      if is_neg yu
      then mk_args (ord 37) (div_down R xu yl) (div_up R xl yu)
      else mk_args (ord 39) (div_down R xl yl) (div_up R xu yu)
    else if is_neg xl then
      if is_neg yu
      then mk_args (ord 42) (div_down R xu yu) (div_up R xl yu)
      else mk_args (ord 44) (div_down R xl yl) (div_up R xu yl)
    else
      if is_neg yu
      then mk_args (ord 47) (div_down R xu yu) (div_up R xl yl)
      else mk_args (ord 49) (div_down R xl yu) (div_up R xu yl)).

(** detail/division.hpp:52-64 *)
Definition div_non_zero_n (x : T N) (y : I) : M I :=
  with_rnd P (
    let yl := low y in let yu := up y in
    if is_neg x
    then mk_args (ord 61) (div_down R x yl) (div_up R x yu)
    else mk_args (ord 63) (div_down R x yu) (div_up R x yl)).

(** detail/division.hpp:66-84 *)
Definition div_positive (x : I) (yu : T N) : M I :=
  if is_zero (low x) && is_zero (up x) then ret x else
  with_rnd P (
    let xl := low x in let xu := up x in
    if is_neg xu then mk_args (ord 79) (ck_neg_inf C) (div_up R xu yu)
    else if is_neg xl then mk_args (ord 81) (ck_neg_inf C) (ck_pos_inf C)
    else mk_args (ord 83) (div_down R xl yu) (ck_pos_inf C)).

(** detail/division.hpp:86-99 *)
Definition div_positive_n (x yu : T N) : M I :=
  if is_zero x then ret (mk zero zero) else
  with_rnd P (
    if is_neg x then mk_args (ord 96) (ck_neg_inf C) (div_up R x yu)
    else mk_args (ord 98) (div_down R x yu) (ck_pos_inf C)).

(** detail/division.hpp:101-119 *)
Definition div_negative (x : I) (yl : T N) : M I :=
  if is_zero (low x) && is_zero (up x) then ret x else
  with_rnd P (
    let xl := low x in let xu := up x in
    if is_neg xu then mk_args (ord 114) (div_down R xu yl) (ck_pos_inf C)
    else if is_neg xl then mk_args (ord 116) (ck_neg_inf C) (ck_pos_inf C)
    else mk_args (ord 118) (ck_neg_inf C) (div_up R xl yl)).

(** detail/division.hpp:121-134 *)
Definition div_negative_n (x yl : T N) : M I :=
  if is_zero x then ret (mk zero zero) else
  with_rnd P (
    if is_neg x then mk_args (ord 131) (div_down R x yl) (ck_pos_inf C)
    else mk_args (ord 133) (ck_neg_inf C) (div_up R x yl)).

(** detail/division.hpp:136-143 *)
Definition div_zero (x : I) : M I :=
  if is_zero (low x) && is_zero (up x) then ret x else i_whole P.

(** detail/division.hpp:145-151 *)
Definition div_zero_n (x : T N) : M I :=
  if is_zero x then ret (mk zero zero) else i_whole P.

(** detail/division.hpp:153-173; the out-parameter b is returned. *)
Definition div_zero_part1 (x y : I) : M (I * bool) :=
  if is_zero (low x) && is_zero (up x) then ret (x, false) else
  with_rnd P (
    let xl := low x in let xu := up x in let yl := low y in let yu := up y in
    if is_neg xu then
      let! z := mk_args (ord 168) (ck_neg_inf C) (div_up R xu yu) in ret (z, true)
    else if is_neg xl then
      let! z := mk_args (ord 170) (ck_neg_inf C) (ck_pos_inf C) in ret (z, false)
    else
      let! z := mk_args (ord 172) (ck_neg_inf C) (div_up R xl yl) in ret (z, true)).

(** detail/division.hpp:175-187 *)
Definition div_zero_part2 (x y : I) : M I :=
  with_rnd P (
    if is_neg (up x)
    then mk_args (ord 184) (div_down R (up x) (low y)) (ck_pos_inf C)
    else mk_args (ord 186) (div_down R (low x) (up y)) (ck_pos_inf C)).
End Division.

Section Arith.
Context {N : num} (P : policy N).
Notation C := (p_ck P).
Notation R := (p_ar P).
Notation I := (itv N).
Notation ord l := (p_ord P (H_arith, l)).

(** arith.hpp:28-32 *)
Definition op_pos (x : I) : M I := ret x.

(** arith.hpp:114-123 *)
Definition op_add (x y : I) : M I :=
  if test_input_ii P x y then i_empty P else
  with_rnd P (mk_args (ord 121)
    (add_down R (low x) (low y)) (add_up R (up x) (up y))).
(** arith.hpp:125-133 *)
Definition op_add_ni (x : T N) (y : I) : M I :=
  let! b := test_input_ni P x y in
  if b then i_empty P else
  with_rnd P (mk_args (ord 131) (add_down R x (low y)) (add_up R x (up y))).
(** arith.hpp:135-137 *)
Definition op_add_in (x : I) (y : T N) : M I := op_add_ni y x.

(** arith.hpp:139-148 *)
Definition op_sub (x y : I) : M I :=
  if test_input_ii P x y then i_empty P else
  with_rnd P (mk_args (ord 146)
    (sub_down R (low x) (up y)) (sub_up R (up x) (low y))).
(** arith.hpp:150-158 *)
Definition op_sub_ni (x : T N) (y : I) : M I :=
  let! b := test_input_ni P x y in
  if b then i_empty P else
  with_rnd P (mk_args (ord 156) (sub_down R x (up y)) (sub_up R x (low y))).
(** arith.hpp:160-168 *)
Definition op_sub_in (x : I) (y : T N) : M I :=
  let! b := test_input_in P x y in
  if b then i_empty P else
  with_rnd P (mk_args (ord 166) (sub_down R (low x) y) (sub_up R (up x) y)).

(** arith.hpp:170-223 *)
Definition op_mul (x y : I) : M I :=
  if test_input_ii P x y then i_empty P else
  with_rnd P (
    let xl := low x in let xu := up x in let yl := low y in let yu := up y in
    if is_neg xl then
      if is_pos xu then
        if is_neg yl then
          if is_pos yu (* M * M *)
          then mk_args (ord 189)
                 (let! p := args2 (ord 1189) (mul_down R xl yu) (mul_down R xu yl) in
                  ret (std_min (fst p) (snd p)))
                 (let! p := args2 (ord 190) (mul_up R xl yl) (mul_up R xu yu) in
                  ret (std_max (fst p) (snd p)))
          else (* M * N *) mk_args (ord 192) (mul_down R xu yl) (mul_up R xl yl)
        else
          if is_pos yu
          then (* M * P *) mk_args (ord 195) (mul_down R xl yu) (mul_up R xu yu)
          else (* M * Z *) ret (mk zero zero)
      else
        if is_neg yl then
          if is_pos yu
          then (* N * M *) mk_args (ord 201) (mul_down R xl yu) (mul_up R xl yl)
          else (* N * N *) mk_args (ord 203) (mul_down R xu yu) (mul_up R xl yl)
        else
          if is_pos yu
          then (* N * P *) mk_args (ord 206) (mul_down R xl yu) (mul_up R xu yl)
          else (* N * Z *) ret (mk zero zero)
    else
      if is_pos xu then
        if is_neg yl then
          if is_pos yu
          then (* P * M *) mk_args (ord 213) (mul_down R xu yl) (mul_up R xu yu)
          else (* P * N *) mk_args (ord 215) (mul_down R xu yl) (mul_up R xl yu)
        else
          if is_pos yu
          then (* P * P *) mk_args (ord 218) (mul_down R xl yl) (mul_up R xu yu)
          else (* P * Z *) ret (mk zero zero)
      else (* Z * ? *) ret (mk zero zero)).
(** arith.hpp:225-241 *)
Definition op_mul_ni (x : T N) (y : I) : M I :=
  let! b := test_input_ni P x y in
  if b then i_empty P else
  with_rnd P (
    let yl := low y in let yu := up y in
    if is_neg x then mk_args (ord 236) (mul_down R x yu) (mul_up R x yl)
    else if is_zero x then ret (mk zero zero)
    else mk_args (ord 240) (mul_down R x yl) (mul_up R x yu)).
(** arith.hpp:243-245 *)
Definition op_mul_in (x : I) (y : T N) : M I := op_mul_ni y x.

(** arith.hpp:247-266 *)
Definition op_div (x y : I) : M I :=
  if test_input_ii P x y then i_empty P else
  if zero_in P y then
    if negb (is_zero (low y)) then
      if negb (is_zero (up y)) then div_zero P x
      else div_negative P x (low y)
    else
      if negb (is_zero (up y)) then div_positive P x (up y)
      else i_empty P
  else div_non_zero P x y.
(** arith.hpp:268-286 *)
Definition op_div_ni (x : T N) (y : I) : M I :=
  let! b := test_input_ni P x y in
  if b then i_empty P else
  if zero_in P y then
    if negb (is_zero (low y)) then
      if negb (is_zero (up y)) then div_zero_n P x
      else div_negative_n P x (low y)
    else
      if negb (is_zero (up y)) then div_positive_n P x (up y)
      else i_empty P
  else div_non_zero_n P x y.
(** arith.hpp:288-300 *)
Definition op_div_in (x : I) (y : T N) : M I :=
  let! b := test_input_in P x y in
  if b || is_zero y then i_empty P else
  with_rnd P (
    let xl := low x in let xu := up x in
    if is_neg y then mk_args (ord 297) (div_down R xu y) (div_up R xl y)
    else mk_args (ord 299) (div_down R xl y) (div_up R xu y)).

(** Compound assignment through the binary operator: the right-hand side is
    computed from the old object, then copied in (interval.hpp:218-224).
    arith.hpp:90-94, 96-100, 102-106, 108-112 *)
Definition m_via (f : I -> M I) : MO unit (N := N) :=
  obind (ocomp f) (fun v => m_copy (IVal v)).
Definition m_mul (r : iref) : MO unit (N := N) := m_via (fun o => op_mul o (rdi o r)).
Definition m_mul_n (r : nref) : MO unit (N := N) := m_via (fun o => op_mul_ni (rd o r) o).
Definition m_div (r : iref) : MO unit (N := N) := m_via (fun o => op_div o (rdi o r)).
Definition m_div_n (r : nref) : MO unit (N := N) := m_via (fun o => op_div_in o (rd o r)).
End Arith.
