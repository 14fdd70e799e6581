(** * Utility functions (utility.hpp) *)

From Coq Require Import ZArith Bool.
From Verif Require Import Outcome Base Checking Interval.
Local Open Scope Z_scope.

Section Utility.
Context {N : num} (P : policy N).
Notation C := (p_ck P).
Notation R := (p_ar P).
Notation I := (itv N).
Notation ord l := (p_ord P (H_utility, l)).

(** utility.hpp:96-100 *)
Definition u_empty (x : I) : bool := test_input_i P x.

(** utility.hpp:43-51 *)
Definition checked_lower (x : I) : M (T N) :=
  if u_empty x then ck_nan C else ret (low x).
(** utility.hpp:53-61 *)
Definition checked_upper (x : I) : M (T N) :=
  if u_empty x then ck_nan C else ret (up x).

(** utility.hpp:63-69 *)
Definition width (x : I) : M (T N) :=
  if test_input_i P x then ret zero
  else with_rnd P (sub_up R (up x) (low x)).

(** utility.hpp:71-80 *)
Definition median (x : I) : M (T N) :=
  if test_input_i P x then ck_nan C
  else with_rnd P (ar_median R (low x) (up x)).

(** utility.hpp:82-90 *)
Definition widen (x : I) (v : T N) : M I :=
  if test_input_i P x then i_empty P
  else with_rnd P (mk_args (ord 88) (sub_down R (low x) v) (add_up R (up x) v)).

(** utility.hpp:102-108 *)
Definition zero_in (x : I) : bool :=
  if test_input_i P x then false
  else negb (is_pos (low x)) && negb (is_neg (up x)).

(** utility.hpp:116-121 *)
Definition u_in (x : T N) (y : I) : M bool :=
  let! b := test_input_ni P x y in
  if b then ret false else ret (n_le N (low y) x && n_le N x (up y)).

(** utility.hpp:123-129 *)
Definition subset (x y : I) : bool :=
  if u_empty x then true
  else negb (u_empty y) && n_le N (low y) (low x) && n_le N (up x) (up y).

(** utility.hpp:131-139 (same policy on both sides) *)
Definition proper_subset (x y : I) : bool :=
  if u_empty y then false
  else if u_empty x then true
  else n_le N (low y) (low x) && n_le N (up x) (up y)
       && (n_ne (low y) (low x) || n_ne (up x) (up y)).

(** utility.hpp:141-148 *)
Definition overlap (x y : I) : bool :=
  if test_input_ii P x y then false
  else (n_le N (low x) (low y) && n_le N (low y) (up x))
    || (n_le N (low y) (low x) && n_le N (low x) (up y)).

(** utility.hpp:150-154 *)
Definition singleton (x : I) : bool :=
  negb (u_empty x) && n_eq N (low x) (up x).

(** utility.hpp:156-161 *)
Definition equal (x y : I) : bool :=
  if u_empty x then u_empty y
  else negb (u_empty y) && n_eq N (low x) (low y) && n_eq N (up x) (up y).

(** utility.hpp:163-175 *)
Definition intersect (x y : I) : M I :=
  if test_input_ii P x y then i_empty P
  else
    let l := std_max (low x) (low y) in
    let u := std_min (up x) (up y) in
    if n_le N l u then ret (mk l u) else i_empty P.

(** utility.hpp:177-192 *)
Definition hull (x y : I) : M I :=
  let bad_x := test_input_i P x in
  let bad_y := test_input_i P y in
  if bad_x then
    if bad_y then i_empty P else ret y
  else if bad_y then ret x
  else ret (mk (std_min (low x) (low y)) (std_max (up x) (up y))).

(** utility.hpp:194-208 *)
Definition hull_in (x : I) (y : T N) : M I :=
  let bad_x := test_input_i P x in
  let! bad_y := test_input_n P y in
  if bad_y then
    if bad_x then i_empty P else ret x
  else if bad_x then ret (mk y y)
  else ret (mk (std_min (low x) y) (std_max (up x) y)).

(** utility.hpp:210-224 *)
Definition hull_ni (x : T N) (y : I) : M I :=
  let! bad_x := test_input_n P x in
  let bad_y := test_input_i P y in
  if bad_x then
    if bad_y then i_empty P else ret y
  else if bad_y then ret (mk x x)
  else ret (mk (std_min x (low y)) (std_max x (up y))).

(** utility.hpp:226-230 *)
Definition hull_nn (x y : T N) : M I := i_hull P x y.

(** utility.hpp:232-241 *)
Definition bisect (x : I) : M (I * I) :=
  if test_input_i P x then args2 (ord 238) (i_empty P) (i_empty P)
  else let! m := median x in ret (mk (low x) m, mk m (up x)).

(** utility.hpp:247-256 *)
Definition norm (x : I) : M (T N) :=
  if test_input_i P x then ck_nan C
  else let! nl := neg (low x) in ret (std_max nl (up x)).

(** arith.hpp:34-40, needed by abs *)
Definition op_neg (x : I) : M I :=
  if test_input_i P x then i_empty P
  else mk_args (p_ord P (H_arith, 39)) (neg (up x)) (neg (low x)).

(** utility.hpp:258-268 *)
Definition u_abs (x : I) : M I :=
  if test_input_i P x then i_empty P
  else if negb (is_neg (low x)) then ret x
  else if negb (is_pos (up x)) then op_neg x
  else let! nl := neg (low x) in ret (mk zero (std_max nl (up x))).

(** utility.hpp:270-279 *)
Definition u_max (x y : I) : M I :=
  if test_input_ii P x y then i_empty P
  else ret (mk (std_max (low x) (low y)) (std_max (up x) (up y))).
(** utility.hpp:281-289 *)
Definition u_max_in (x : I) (y : T N) : M I :=
  let! b := test_input_in P x y in
  if b then i_empty P else ret (mk (std_max (low x) y) (std_max (up x) y)).
(** utility.hpp:291-299 *)
Definition u_max_ni (x : T N) (y : I) : M I :=
  let! b := test_input_ni P x y in
  if b then i_empty P else ret (mk (std_max x (low y)) (std_max x (up y))).
(** utility.hpp:301-310 *)
Definition u_min (x y : I) : M I :=
  if test_input_ii P x y then i_empty P
  else ret (mk (std_min (low x) (low y)) (std_min (up x) (up y))).
(** utility.hpp:312-320 *)
Definition u_min_in (x : I) (y : T N) : M I :=
  let! b := test_input_in P x y in
  if b then i_empty P else ret (mk (std_min (low x) y) (std_min (up x) y)).
(** utility.hpp:322-330 *)
Definition u_min_ni (x : T N) (y : I) : M I :=
  let! b := test_input_ni P x y in
  if b then i_empty P else ret (mk (std_min x (low y)) (std_min x (up y))).
End Utility.
