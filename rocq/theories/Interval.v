(** * The interval class (interval.hpp) and detail/test_input.hpp *)

From Coq Require Import ZArith Bool.
From Verif Require Import Outcome Base Checking.
Local Open Scope Z_scope.

(** interval.hpp:130-131: the two data members.  The internal constructor
    interval(l, u, true) (interval.hpp:96) is [mk l u]. *)
Record itv (N : num) := mk { low : T N; up : T N }.
Arguments mk {N} low up.
Arguments low {N} i.
Arguments up {N} i.

(** The expression I(e1, e2, true) with unspecified order of e1 and e2. *)
Definition mk_args {N} (o : bool) (m1 m2 : M (T N)) : M (itv N) :=
  let! lu := args2 o m1 m2 in ret (mk (fst lu) (snd lu)).

Section Interval.
Context {N : num} (P : policy N).
Notation C := (p_ck P).
Notation I := (itv N).

(** detail/test_input.hpp:33-37 *)
Definition test_input_i (x : I) : bool := ck_is_empty C (low x) (up x).
(** detail/test_input.hpp:39-45, with the same policy on both sides *)
Definition test_input_ii (x y : I) : bool := test_input_i x || test_input_i y.
(** detail/test_input.hpp:47-51 *)
Definition test_input_ni (x : T N) (y : I) : M bool :=
  let! b := ck_is_nan C x in if b then ret true else ret (test_input_i y).
(** detail/test_input.hpp:53-57 *)
Definition test_input_in (x : I) (y : T N) : M bool :=
  if test_input_i x then ret true else ck_is_nan C y.
(** detail/test_input.hpp:59-63 *)
Definition test_input_n (x : T N) : M bool := ck_is_nan C x.
(** detail/test_input.hpp:65-69 *)
Definition test_input_nn (x y : T N) : M bool :=
  let! b := ck_is_nan C x in if b then ret true else ck_is_nan C y.

(** interval.hpp:294-299 *)
Definition i_empty : M I :=
  mk_args (p_ord P (H_interval, 297)) (ck_empty_lower C) (ck_empty_upper C).
(** interval.hpp:301-305 *)
Definition i_whole : M I :=
  mk_args (p_ord P (H_interval, 304)) (ck_neg_inf C) (ck_pos_inf C).

(** The value left by set_empty (interval.hpp:266-271) in an object under
    construction: low first, then up; an exception from either leaves no object. *)
Definition c_set_empty : M I :=
  let! l := ck_empty_lower C in let! u := ck_empty_upper C in ret (mk l u).

(** interval.hpp:134-137 *)
Definition ctor_default : M I := ret (mk zero zero).

(** interval.hpp:139-143 *)
Definition ctor_num (v : T N) : M I :=
  let! b := ck_is_nan C v in if b then c_set_empty else ret (mk v v).

(** interval.hpp:145-154.  checking::is_nan takes a [T const&], so the U
    argument is first converted to T under the mode in force at the call. *)
Definition is_nan_src (s : source N) (v : U s) : M bool :=
  let! t := under_mode (fun m => s_toT s m v) in ck_is_nan C t.
Definition ctor_src (s : source N) (v : U s) : M I :=
  let! b := is_nan_src s v in
  if b then c_set_empty else
  with_rnd P (
    let! l := conv_down (p_ar P) s v in
    let! u := conv_up (p_ar P) s v in
    ret (mk l u)).

(** interval.hpp:156-165: two arguments, possibly of different types T1 and T2;
    [le] is the C++ operator<= on a T1 and a T2. *)
Definition ctor_src12 (s1 s2 : source N) (le : U s1 -> U s2 -> bool)
    (v : U s1) (w : U s2) : M I :=
  let! b1 := is_nan_src s1 v in
  let! b := (if b1 then ret true else is_nan_src s2 w) in
  if b || negb (le v w) then c_set_empty else
  with_rnd P (
    let! l := conv_down (p_ar P) s1 v in
    let! u := conv_up (p_ar P) s2 w in
    ret (mk l u)).
(** The same with T1 = T2. *)
Definition ctor_src2 (s : source N) (v w : U s) : M I := ctor_src12 s s (s_le s) v w.

(** interval.hpp:167-172 *)
Definition ctor_num2 (l u : T N) : M I :=
  let! b1 := ck_is_nan C l in
  let! b := (if b1 then ret true else ck_is_nan C u) in
  if b || negb (n_le N l u) then c_set_empty else ret (mk l u).

(** interval.hpp:175-177 *)
Definition ctor_copy (r : I) : M I := ret (mk (low r) (up r)).

(** interval.hpp:179-184: same base type, another policy [P1]. *)
Definition ctor_policy (P1 : policy N) (r : I) : M I :=
  if ck_is_empty (p_ck P1) (low r) (up r) then c_set_empty
  else ret (mk (low r) (up r)).

(** A result of the unprotected type returned from a function whose return type
    is the interval type itself: the converting constructor
    (interval.hpp:179-184), or the copy constructor (interval.hpp:175-177) when
    the policy is its own unprotected version (rounding.hpp:67-71, 87-91). *)
Definition ctor_back (r : I) : M I :=
  match p_prot P with
  | Save => ctor_policy (unprotect P) r
  | _ => ctor_copy r
  end.

(** interval.hpp:280-292 *)
Definition i_hull (x y : T N) : M I :=
  let! bad_x := ck_is_nan C x in
  let! bad_y := ck_is_nan C y in
  if bad_x then
    if bad_y then i_empty else ret (mk y y)
  else if bad_y then ret (mk x x)
  else if n_le N x y then ret (mk x y) else ret (mk y x).

(** ** Default comparisons (interval.hpp:102-125, 319-445)

    interval_holder and number_holder are built from the right operand first
    and may throw. *)
Definition cerr {A} : M A := throw ComparisonError.

(** interval.hpp:102-114, [P2] being the policy of the right operand. *)
Definition interval_holder (P2 : policy N) (r : I) : M I :=
  if ck_is_empty (p_ck P2) (low r) (up r) then cerr else ret r.
(** interval.hpp:116-125 *)
Definition number_holder (r : T N) : M (T N) :=
  let! b := ck_is_nan C r in if b then cerr else ret r.

(** interval.hpp:323-331 *)
Definition cmp_lt (P2 : policy N) (x y : I) : M bool :=
  let! r := interval_holder P2 y in
  if negb (test_input_i x) then
    if n_lt N (up x) (low r) then ret true
    else if n_ge (low x) (up r) then ret false else cerr
  else cerr.
(** interval.hpp:333-341 *)
Definition cmp_gt (P2 : policy N) (x y : I) : M bool :=
  let! r := interval_holder P2 y in
  if negb (test_input_i x) then
    if n_gt (low x) (up r) then ret true
    else if n_le N (up x) (low r) then ret false else cerr
  else cerr.
(** interval.hpp:343-351 *)
Definition cmp_le (P2 : policy N) (x y : I) : M bool :=
  let! r := interval_holder P2 y in
  if negb (test_input_i x) then
    if n_le N (up x) (low r) then ret true
    else if n_gt (low x) (up r) then ret false else cerr
  else cerr.
(** interval.hpp:353-361 *)
Definition cmp_ge (P2 : policy N) (x y : I) : M bool :=
  let! r := interval_holder P2 y in
  if negb (test_input_i x) then
    if n_ge (low x) (up r) then ret true
    else if n_lt N (up x) (low r) then ret false else cerr
  else cerr.
(** interval.hpp:363-371 *)
Definition cmp_eq (P2 : policy N) (x y : I) : M bool :=
  let! r := interval_holder P2 y in
  if negb (test_input_i x) then
    if n_eq N (up x) (low r) && n_eq N (low x) (up r) then ret true
    else if n_lt N (up x) (low r) || n_gt (low x) (up r) then ret false else cerr
  else cerr.
(** interval.hpp:373-381 *)
Definition cmp_ne (P2 : policy N) (x y : I) : M bool :=
  let! r := interval_holder P2 y in
  if negb (test_input_i x) then
    if n_lt N (up x) (low r) || n_gt (low x) (up r) then ret true
    else if n_eq N (up x) (low r) && n_eq N (low x) (up r) then ret false else cerr
  else cerr.

(** interval.hpp:387-395 *)
Definition cmpn_lt (x : I) (y : T N) : M bool :=
  let! r := number_holder y in
  if negb (test_input_i x) then
    if n_lt N (up x) r then ret true
    else if n_ge (low x) r then ret false else cerr
  else cerr.
(** interval.hpp:397-405 *)
Definition cmpn_gt (x : I) (y : T N) : M bool :=
  let! r := number_holder y in
  if negb (test_input_i x) then
    if n_gt (low x) r then ret true
    else if n_le N (up x) r then ret false else cerr
  else cerr.
(** interval.hpp:407-415 *)
Definition cmpn_le (x : I) (y : T N) : M bool :=
  let! r := number_holder y in
  if negb (test_input_i x) then
    if n_le N (up x) r then ret true
    else if n_gt (low x) r then ret false else cerr
  else cerr.
(** interval.hpp:417-425 *)
Definition cmpn_ge (x : I) (y : T N) : M bool :=
  let! r := number_holder y in
  if negb (test_input_i x) then
    if n_ge (low x) r then ret true
    else if n_lt N (up x) r then ret false else cerr
  else cerr.
(** interval.hpp:427-435 *)
Definition cmpn_eq (x : I) (y : T N) : M bool :=
  let! r := number_holder y in
  if negb (test_input_i x) then
    if n_eq N (up x) r && n_eq N (low x) r then ret true
    else if n_lt N (up x) r || n_gt (low x) r then ret false else cerr
  else cerr.
(** interval.hpp:437-445 *)
Definition cmpn_ne (x : I) (y : T N) : M bool :=
  let! r := number_holder y in
  if negb (test_input_i x) then
    if n_lt N (up x) r || n_gt (low x) r then ret true
    else if n_eq N (up x) r && n_eq N (low x) r then ret false else cerr
  else cerr.
End Interval.

(** interval.hpp:186-196: another base type [N1] with its own policy; [s] is the
    conversion from N1 (its U is the base type of the source interval). *)
Definition ctor_itv {N N1} (P : policy N) (s : source N)
    (P1 : policy N1) (toU : T N1 -> U s) (r : itv N1) : M (itv N) :=
  if ck_is_empty (p_ck P1) (low r) (up r) then c_set_empty P else
  with_rnd P (
    let! l := conv_down (p_ar P) s (toU (low r)) in
    let! u := conv_up (p_ar P) s (toU (up r)) in
    ret (mk l u)).

(** ** Mutating members, with the object's storage explicit

    Arguments passed by const reference may designate a bound of the object
    itself; they are re-read each time the C++ code names them. *)
Section Mutators.
Context {N : num} (P : policy N).
Notation C := (p_ck P).
Notation I := (itv N).

(** An argument of type [const T&]: an outside value, or a bound of *this. *)
Inductive nref := NVal (v : T N) | NLow | NUp.
(** An argument of type [const interval&]: another object, or *this. *)
Inductive iref := IVal (v : I) | IThis.

Definition rd (o : I) (r : nref) : T N :=
  match r with NVal v => v | NLow => low o | NUp => up o end.
Definition rdi (o : I) (r : iref) : I :=
  match r with IVal v => v | IThis => o end.

(** A member function: transforms the object; on an exception the object is
    left in the state the stores so far produced. *)
Definition MO (A : Type) : Type := I -> rmode -> outcome A * I * rmode.
Definition oret {A} (a : A) : MO A := fun o s => (Ok a, o, s).
Definition obind {A B} (m : MO A) (k : A -> MO B) : MO B := fun o s =>
  match m o s with
  | (Ok a, o1, s1) => k a o1 s1
  | (Throw e, o1, s1) => (Throw e, o1, s1)
  | (AssertFail, o1, s1) => (AssertFail, o1, s1)
  | (UB, o1, s1) => (UB, o1, s1)
  | (NoFuel, o1, s1) => (NoFuel, o1, s1)
  end.
(** A computation that does not touch the object but may read it. *)
Definition ocomp {A} (f : I -> M A) : MO A := fun o s =>
  let (r, s1) := f o s in (r, o, s1).
Definition store_low (v : T N) : MO unit := fun o s => (Ok tt, mk v (up o), s).
Definition store_up (v : T N) : MO unit := fun o s => (Ok tt, mk (low o) v, s).

Local Notation "'do' x := m 'in' k" := (obind m (fun x => k))
  (at level 200, x pattern, m at level 100, k at level 200, right associativity).

(** interval.hpp:259-264: two stores, each reading its reference at that time. *)
Definition m_set (l u : nref) : MO unit :=
  do _ := (fun o => store_low (rd o l) o) in (fun o => store_up (rd o u) o).

(** interval.hpp:266-271 *)
Definition m_set_empty : MO unit :=
  do l := ocomp (fun _ => ck_empty_lower C) in
  do _ := store_low l in
  do u := ocomp (fun _ => ck_empty_upper C) in
  store_up u.

(** interval.hpp:273-278 *)
Definition m_set_whole : MO unit :=
  do l := ocomp (fun _ => ck_neg_inf C) in
  do _ := store_low l in
  do u := ocomp (fun _ => ck_pos_inf C) in
  store_up u.

(** interval.hpp:251-257 *)
Definition m_assign (l u : nref) : MO unit :=
  do b := ocomp (fun o =>
    let! b1 := ck_is_nan C (rd o l) in
    let! b := (if b1 then ret true else ck_is_nan C (rd o u)) in
    ret (b || negb (n_le N (rd o l) (rd o u)))) in
  if b then m_set_empty else m_set l u.

(** interval.hpp:198-204: low = up = v stores up first, then low from up. *)
Definition m_assign_num (v : nref) : MO unit :=
  do b := ocomp (fun o => ck_is_nan C (rd o v)) in
  if b then m_set_empty
  else do _ := (fun o => store_up (rd o v) o) in (fun o => store_low (up o) o).

(** interval.hpp:206-216.  Simplified: both conversions are made before the two
    stores, which shows only if conv_up fails: the code has then stored low. *)
Definition m_assign_src (s : source N) (v : U s) : MO unit :=
  do b := ocomp (fun _ => is_nan_src P s v) in
  if b then m_set_empty else
  do lu := ocomp (fun _ => with_rnd P (
      let! l := conv_down (p_ar P) s v in
      let! u := conv_up (p_ar P) s v in ret (l, u))) in
  do _ := store_low (fst lu) in store_up (snd lu).

(** interval.hpp:218-224 *)
Definition m_copy (r : iref) : MO unit :=
  do _ := (fun o => store_low (low (rdi o r)) o) in
  (fun o => store_up (up (rdi o r)) o).

(** interval.hpp:226-236 *)
Definition m_assign_policy (P1 : policy N) (r : I) : MO unit :=
  if ck_is_empty (p_ck P1) (low r) (up r) then m_set_empty
  else do _ := store_low (low r) in store_up (up r).

(** interval.hpp:238-249: another base type [N1] with its own policy; stores as
    in [m_assign_src]. *)
Definition m_assign_itv {N1} (s : source N) (P1 : policy N1) (toU : T N1 -> U s) (r : itv N1) : MO unit :=
  if ck_is_empty (p_ck P1) (low r) (up r) then m_set_empty else
  do lu := ocomp (fun _ => with_rnd P (
      let! l := conv_down (p_ar P) s (toU (low r)) in
      let! u := conv_up (p_ar P) s (toU (up r)) in ret (l, u))) in
  do _ := store_low (fst lu) in store_up (snd lu).

(** arith.hpp:42-52 *)
Definition m_add (r : iref) : MO unit :=
  do b := ocomp (fun o => ret (test_input_ii P o (rdi o r))) in
  if b then m_set_empty else
  do lu := ocomp (fun o => with_rnd P (args2 (p_ord P (H_arith, 49))
      (add_down (p_ar P) (low o) (low (rdi o r)))
      (add_up (p_ar P) (up o) (up (rdi o r))))) in
  m_set (NVal (fst lu)) (NVal (snd lu)).

(** arith.hpp:54-64 *)
Definition m_add_n (r : nref) : MO unit :=
  do b := ocomp (fun o => test_input_in P o (rd o r)) in
  if b then m_set_empty else
  do lu := ocomp (fun o => with_rnd P (args2 (p_ord P (H_arith, 61))
      (add_down (p_ar P) (low o) (rd o r))
      (add_up (p_ar P) (up o) (rd o r)))) in
  m_set (NVal (fst lu)) (NVal (snd lu)).

(** arith.hpp:66-76 *)
Definition m_sub (r : iref) : MO unit :=
  do b := ocomp (fun o => ret (test_input_ii P o (rdi o r))) in
  if b then m_set_empty else
  do lu := ocomp (fun o => with_rnd P (args2 (p_ord P (H_arith, 73))
      (sub_down (p_ar P) (low o) (up (rdi o r)))
      (sub_up (p_ar P) (up o) (low (rdi o r))))) in
  m_set (NVal (fst lu)) (NVal (snd lu)).

(** arith.hpp:78-88 *)
Definition m_sub_n (r : nref) : MO unit :=
  do b := ocomp (fun o => test_input_in P o (rd o r)) in
  if b then m_set_empty else
  do lu := ocomp (fun o => with_rnd P (args2 (p_ord P (H_arith, 85))
      (sub_down (p_ar P) (low o) (rd o r))
      (sub_up (p_ar P) (up o) (rd o r)))) in
  m_set (NVal (fst lu)) (NVal (snd lu)).
End Mutators.
Arguments NVal {N} v.
Arguments NLow {N}.
Arguments NUp {N}.
Arguments IVal {N} v.
Arguments IThis {N}.
