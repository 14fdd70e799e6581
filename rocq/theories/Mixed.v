(** * Set predicates on intervals with two policies, and small accessors
      (utility.hpp, compare/set.hpp)

    The predicates that are templates over two policies.  [Utility.v] has the
    instances with one policy. *)

From Coq Require Import ZArith Bool.
From Verif Require Import Outcome Base Checking Interval Utility Compare.

Section Accessors.
Context {N : num} (P : policy N).
(** utility.hpp:31-35 *)
Definition u_lower (x : itv N) : T N := low x.
(** utility.hpp:37-41 *)
Definition u_upper (x : itv N) : T N := up x.
(** utility.hpp:110-114 *)
Definition in_zero (x : itv N) : bool := zero_in P x.
End Accessors.

Section Mixed.
Context {N : num} (P1 P2 : policy N).
Notation I := (itv N).

(** utility.hpp:131-139 *)
Definition proper_subset_2 (x y : I) : bool :=
  if u_empty P2 y then false
  else if u_empty P1 x then true
  else n_le N (low y) (low x) && n_le N (up x) (up y)
       && (n_ne (low y) (low x) || n_ne (up x) (up y)).
(** utility.hpp:141-148, detail/test_input.hpp:39-45 *)
Definition overlap_2 (x y : I) : bool :=
  if test_input_i P1 x || test_input_i P2 y then false
  else (n_le N (low x) (low y) && n_le N (low y) (up x))
    || (n_le N (low y) (low x) && n_le N (low x) (up y)).
(** utility.hpp:156-161 *)
Definition equal_2 (x y : I) : bool :=
  if u_empty P1 x then u_empty P2 y
  else negb (u_empty P2 y) && n_eq N (low x) (low y) && n_eq N (up x) (up y).
End Mixed.

(** The operators <= and >= of compare/set.hpp call subset, which is a template
    over one policy: with two policies they do not compile. *)
Section SetMixed.
Context {N : num} (P1 P2 : policy N).
(** compare/set.hpp:24-27 *)
Definition set_lt_2 (x y : itv N) : M bool := ret (proper_subset_2 P1 P2 x y).
(** compare/set.hpp:48-51 *)
Definition set_gt_2 (x y : itv N) : M bool := ret (proper_subset_2 P2 P1 y x).
(** compare/set.hpp:72-75 *)
Definition set_eq_2 (x y : itv N) : M bool := ret (equal_2 P2 P1 y x).
(** compare/set.hpp:84-87 *)
Definition set_ne_2 (x y : itv N) : M bool := ret (negb (equal_2 P2 P1 y x)).
End SetMixed.
