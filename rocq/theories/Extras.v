(** * numeric_limits, stream output and operations with int
    (limits.hpp, io.hpp, ext/integer.hpp) *)

From Coq Require Import ZArith Bool List Ascii String.
From Verif Require Import Outcome Base Checking Interval Utility Arith.
Import ListNotations.
Local Open Scope Z_scope.

Section Extras.
Context {N : num} (P : policy N).
Notation I := (itv N).

(** ** limits.hpp *)

(** std::numeric_limits<T>: the members used at limits.hpp:29-31 and 40-41. *)
Record base_limits := { bl_min : T N; bl_max : T N; bl_epsilon : T N; bl_denorm_min : T N }.

(** A function declared noexcept (BOOST_NOEXCEPT_OR_NOTHROW): an exception that
    would leave it calls std::terminate and the call never returns ([None]). *)
Definition noexcept {A} (m : M A) (s : rmode) : option (outcome A * rmode) :=
  match m s with
  | (Throw _, _) => None
  | r => Some r
  end.

Context (bl : base_limits).
(** limits.hpp:29: I((bl::min)(), (bl::min)()), the public constructor from two
    numbers (interval.hpp:167-172). *)
Definition lim_min : M I := ctor_num2 P (bl_min bl) (bl_min bl).
(** limits.hpp:30 *)
Definition lim_max : M I := ctor_num2 P (bl_max bl) (bl_max bl).
(** limits.hpp:31 *)
Definition lim_epsilon : M I := ctor_num2 P (bl_epsilon bl) (bl_epsilon bl).
(** limits.hpp:36 *)
Definition lim_infinity : M I := i_whole P.
(** limits.hpp:37 *)
Definition lim_quiet_NaN : M I := i_empty P.
(** limits.hpp:40-41 *)
Definition lim_denorm_min : M I := ctor_num2 P (bl_denorm_min bl) (bl_denorm_min bl).
(** limits.hpp:38-39, signaling_NaN(), names a member [signaling_Nan] that no
    numeric_limits has: a program that calls it does not compile. *)

(** ** io.hpp:27-36

    The stream is the list of characters written so far; [show] is the
    conversion operator<< applies to a T with the flags of the stream (the
    field width is taken to be 0). *)
Definition print (show : T N -> list ascii) (x : I) (stream : list ascii) : list ascii :=
  if u_empty P x then stream ++ ["["; "]"]%char
  else stream ++ ["["%char] ++ show (low x) ++ [","%char] ++ show (up x) ++ ["]"%char].

(** ** ext/integer.hpp

    [n] is a value of type int; static_cast<T>(n) is done in the mode in force
    at the call, before the operator opens its rounding scope. *)
Definition to_T (n : Z) : M (T N) := under_mode (fun m => n_of_int N m n).
(** integer.hpp:19-23 *)
Definition add_xn (x : I) (n : Z) : M I := let! t := to_T n in op_add_in P x t.
(** integer.hpp:25-29 *)
Definition add_nx (n : Z) (x : I) : M I := let! t := to_T n in op_add_ni P t x.
(** integer.hpp:31-35 *)
Definition sub_xn (x : I) (n : Z) : M I := let! t := to_T n in op_sub_in P x t.
(** integer.hpp:37-41 *)
Definition sub_nx (n : Z) (x : I) : M I := let! t := to_T n in op_sub_ni P t x.
(** integer.hpp:43-47 *)
Definition mul_xn (x : I) (n : Z) : M I := let! t := to_T n in op_mul_in P x t.
(** integer.hpp:49-53 *)
Definition mul_nx (n : Z) (x : I) : M I := let! t := to_T n in op_mul_ni P t x.
(** integer.hpp:55-59 *)
Definition div_xn (x : I) (n : Z) : M I := let! t := to_T n in op_div_in P x t.
(** integer.hpp:61-65 *)
Definition div_nx (n : Z) (x : I) : M I := let! t := to_T n in op_div_ni P t x.
End Extras.
Arguments base_limits N : clear implicits.
