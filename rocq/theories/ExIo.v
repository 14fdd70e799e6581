(** * Stream input and the output styles of examples/io.cpp *)

From Coq Require Import ZArith Bool List Ascii.
From Verif Require Import Outcome Base Checking Interval Utility Arith.
Import ListNotations.

(** ** Input streams

    A std::basic_istream with the default flags (skipws), over a string: the
    characters that remain, and whether (failbit or badbit) and eofbit are set. *)
Record stream := { inp : list ascii; failed : bool; ended : bool }.
Definition is_good (s : stream) : bool := negb (failed s) && negb (ended s).
(** setstate(failbit) *)
Definition set_fail (s : stream) : stream := {| inp := inp s; failed := true; ended := ended s |}.

(** std::isspace in the classic locale. *)
Definition blank (c : ascii) : bool :=
  let n := N_of_ascii c in (n =? 32)%N || ((9 <=? n)%N && (n <=? 13)%N).
Fixpoint skip (l : list ascii) : list ascii :=
  match l with [] => [] | c :: r => if blank c then skip r else l end.
(** The sentry of a formatted input function. *)
Definition sentry (s : stream) : stream * bool :=
  if is_good s then
    match skip (inp s) with
    | [] => ({| inp := []; failed := true; ended := true |}, false)
    | r => ({| inp := r; failed := false; ended := false |}, true)
    end
  else (set_fail s, false).

(** stream >> c: c keeps its value if no character can be read. *)
Definition get_char (s : stream) (c : ascii) : stream * ascii :=
  let (s1, ok) := sentry s in
  if ok then match inp s1 with a :: r => ({| inp := r; failed := false; ended := false |}, a) | [] => (s1, c) end
  else (s1, c).
(** stream.putback(c): clears eofbit first (C++11). *)
Definition put_back (s : stream) (c : ascii) : stream :=
  if failed s then {| inp := inp s; failed := true; ended := false |}
  else {| inp := c :: inp s; failed := false; ended := false |}.

Section Io.
Context {N : num} (P : policy N).
Notation I := (itv N).
(** num_get: the number stored, whether the conversion succeeded, and the
    characters left.  If it did not, C++11 still stores 0 or a limit. *)
Context (scan : list ascii -> T N * bool * list ascii).

(** stream >> v.  [None] is an indeterminate value: a local variable without
    initialiser keeps it when the sentry fails. *)
Definition get_num (s : stream) (v : option (T N)) : stream * option (T N) :=
  let (s1, ok) := sentry s in
  if ok then
    let '(t, good, r) := scan (inp s1) in
    ({| inp := r; failed := negb good; ended := match r with [] => true | _ => false end |}, Some t)
  else (s1, v).

(** io.cpp:137-140; the object is [o], the locals l and u are initialised where
    they are used. *)
Definition finish (s : stream) (l u : T N) (o : I) (m : rmode) : outcome unit * I * rmode * stream :=
  if failed s then
    match i_empty P m with
    | (Ok e, m1) => (m_copy (IVal e) o m1, s)
    | (Throw x, m1) => (Throw x, o, m1, s)
    | (AssertFail, m1) => (AssertFail, o, m1, s)
    | (UB, m1) => (UB, o, m1, s)
    | (NoFuel, m1) => (NoFuel, o, m1, s)
    end
  else (m_assign P (NVal l) (NVal u) o m, s).

(** io.cpp:119-142, operator>>.  "u = l" with an indeterminate l is undefined. *)
Definition read (s : stream) (o : I) (m : rmode) : outcome unit * I * rmode * stream :=
  let (s1, c) := get_char s "000"%char in
  if Ascii.eqb c "[" then
    let (s2, l) := get_num s1 None in
    let (s3, c) := get_char s2 c in
    if Ascii.eqb c "," then
      let (s4, u) := get_num s3 None in
      let (s5, c) := get_char s4 c in
      let s6 := if Ascii.eqb c "]" then s5 else set_fail s5 in
      match l, u with
      | Some l, Some u => finish s6 l u o m
      | _, _ => if failed s6 then finish s6 (low o) (up o) o m else (UB, o, m, s6)
      end
    else
      match l with
      | None => (UB, o, m, s3)
      | Some l => finish (if Ascii.eqb c "]" then s3 else set_fail s3) l l o m
      end
  else
    let (s2, l) := get_num (put_back s1 c) None in
    match l with
    | None => (UB, o, m, s2)
    | Some l => finish s2 l l o m
    end.

(** ** Output (the printer of T is [show], the stream the characters written) *)
(** io.cpp:20-30, namespace io_std *)
Definition print_std (show : T N -> list ascii) (x : I) (out : list ascii) : list ascii :=
  if u_empty P x then out ++ ["["; "]"]%char
  else out ++ ["["%char] ++ show (low x) ++ [","%char] ++ show (up x) ++ ["]"%char].
(** io.cpp:36-48, namespace io_sngl *)
Definition print_sngl (show : T N -> list ascii) (x : I) (out : list ascii) : list ascii :=
  if u_empty P x then out ++ ["["; "]"]%char
  else if singleton P x then out ++ ["["%char] ++ show (low x) ++ ["]"%char]
  else out ++ ["["%char] ++ show (low x) ++ [","%char] ++ show (up x) ++ ["]"%char].
End Io.
