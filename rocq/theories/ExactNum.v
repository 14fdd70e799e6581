(** * Base types without rounding: exact fields and machine integers

    The library is documented to work with any number type; for a type that is
    not float, double or long double, rounded_math<T> is
    save_state_nothing<rounded_arith_exact<T> > (rounding.hpp:93-95). *)

From Coq Require Import ZArith QArith Bool.
From Verif Require Import Outcome Base Checking Interval FloatNum.
Local Open Scope Z_scope.

(** ** An exact number type

    A user-defined class such as boost::rational (examples/rational.cpp): its
    operators, and its conversions from int.  Division by zero throws.
    std::numeric_limits is not specialised for it, so has_infinity and
    has_quiet_NaN are false and infinity() and quiet_NaN() return T(). *)
Record exact_type := {
  ef_T : Type;
  ef_lt : ef_T -> ef_T -> bool;
  ef_le : ef_T -> ef_T -> bool;
  ef_eq : ef_T -> ef_T -> bool;
  ef_int : Z -> ef_T;
  ef_add : ef_T -> ef_T -> ef_T;
  ef_sub : ef_T -> ef_T -> ef_T;
  ef_mul : ef_T -> ef_T -> ef_T;
  ef_div : ef_T -> ef_T -> ef_T;
  ef_opp : ef_T -> ef_T
}.

(** sqrt, floor and ceil are not provided by such a type: the functions that
    need them do not compile.  They are given the outcome UB here and no theorem
    uses them. *)
Definition exact_num (F : exact_type) : num := {|
  T := ef_T F;
  X := ef_T F;
  n_lt := ef_lt F;
  n_le := ef_le F;
  n_eq := ef_eq F;
  n_cst := ef_int F;
  n_of_int := fun _ z => Ok (ef_int F z);
  n_load := fun x => x;
  n_store := fun _ x => Ok x;
  x_add := fun _ a b => Ok (ef_add F a b);
  x_sub := fun _ a b => Ok (ef_sub F a b);
  x_mul := fun _ a b => Ok (ef_mul F a b);
  x_div := fun _ a b => if ef_eq F b (ef_int F 0) then Throw NumberError else Ok (ef_div F a b);
  x_opp := fun a => Ok (ef_opp F a);
  x_lt := ef_lt F;
  x_sqrt := fun _ _ => UB;
  n_rint := fun _ _ => UB;
  n_floor := fun _ => UB;
  n_ceil := fun _ => UB;
  n_has_inf := false;
  n_has_nan := false;
  n_inf := ef_int F 0;
  n_nan := ef_int F 0
|}.

(** The checking policies over any base type (as FloatNum.fchecking). *)
Definition gchecking (N : num) (debug : bool) (c : ckind) : checking N :=
  match c with
  | CkBase => checking_base N debug
  | CkNoNan => checking_no_nan N (checking_base N debug)
  | CkCatchNan => checking_catch_nan N InvalidNumber (checking_base N debug)
  | CkNoEmpty => checking_no_empty N debug EmptyCreated (checking_base N debug)
  | CkStrict => checking_strict N debug
  | CkNoEmptyCatchNan =>
      checking_catch_nan N InvalidNumber
        (checking_no_empty N debug EmptyCreated (checking_base N debug))
  end.

(** policies<rounded_math<T>, Checking> for a type without rounding
    (rounding.hpp:93-95, rounding.hpp:87-91, rounded_arith.hpp:26-48). *)
Definition exact_pol (N : num) (debug : bool) (c : ckind) (ord : site -> bool) : policy N := {|
  p_prot := SaveNothing;
  p_ctl := control_default N;
  p_ar := arith_exact N;
  p_ck := gchecking N debug c;
  p_ord := ord
|}.

(** Rational numbers with unbounded numerator and denominator. *)
Definition Q_type : exact_type := {|
  ef_T := Q;
  ef_lt := fun a b => negb (Qle_bool b a);
  ef_le := Qle_bool;
  ef_eq := Qeq_bool;
  ef_int := inject_Z;
  ef_add := fun a b => Qred (a + b)%Q;
  ef_sub := fun a b => Qred (a - b)%Q;
  ef_mul := fun a b => Qred (a * b)%Q;
  ef_div := fun a b => Qred (a / b)%Q;
  ef_opp := fun a => (- a)%Q
|}.

(** ** Machine integers: int on 32 bits

    Signed overflow, division by zero and INT_MIN / -1 are undefined;
    division truncates towards zero. *)
Definition in_int (z : Z) : bool := (-2147483648 <=? z) && (z <=? 2147483647).
Definition int_res (z : Z) : outcome Z := if in_int z then Ok z else UB.
Definition int_num : num := {|
  T := Z;
  X := Z;
  n_lt := Z.ltb;
  n_le := Z.leb;
  n_eq := Z.eqb;
  n_cst := fun z => z;
  n_of_int := fun _ z => Ok z;
  n_load := fun x => x;
  n_store := fun _ x => Ok x;
  x_add := fun _ a b => int_res (a + b);
  x_sub := fun _ a b => int_res (a - b);
  x_mul := fun _ a b => int_res (a * b);
  x_div := fun _ a b => if b =? 0 then UB else int_res (Z.quot a b);
  x_opp := fun a => int_res (- a);
  x_lt := Z.ltb;
  x_sqrt := fun _ _ => UB;
  n_rint := fun _ _ => UB;
  n_floor := fun x => Ok x;
  n_ceil := fun x => Ok x;
  n_has_inf := false;
  n_has_nan := false;
  n_inf := 0;
  n_nan := 0
|}.
