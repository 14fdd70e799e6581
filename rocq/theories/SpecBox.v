(** * Box arithmetic: the same program on numbers

    [interval<T>] with rounded_math of a floating-point type and no rounding
    control (rounding.hpp:93-95: save_state_nothing<rounded_arith_exact<T> >)
    is what doc/interval.htm:91-94 calls box arithmetic.  The specification is
    the expression evaluated on numbers by the hardware, in the current mode. *)

From Coq Require Import Reals ZArith.
From Flocq Require Import Core BinarySingleNaN.
From Verif Require Import Outcome Base Checking Interval Utility Arith Arith2 FloatNum ExactNum Spec Ops.

Section Scalar.
Context (p : platform) (m : rmode).
Notation TT := (flt (p_T p)).
Notation ld := (fconv (p_T p) (p_X p) RNE).
Notation st := (fconv (p_X p) (p_T p) m).

(** [T z = x OP y;] with x and y of type T *)
Definition sc_add (x y : TT) : TT := st (fadd m (ld x) (ld y)).
Definition sc_sub (x y : TT) : TT := st (fsub m (ld x) (ld y)).
Definition sc_mul (x y : TT) : TT := st (fmul m (ld x) (ld y)).
Definition sc_div (x y : TT) : TT := st (fdiv m (ld x) (ld y)).
Definition sc_sqrt (x : TT) : TT := st (fsqrt m (ld x)).

Definition fin (t : TT) : option TT := if is_finite t then Some t else None.
Definition sc1 (o : op1) (x : TT) : option TT :=
  match o with
  | U_neg => fin (Bopp x)
  | U_abs => fin (Babs x)
  | U_sqrt => fin (sc_sqrt x)
  | U_square => fin (sc_mul x x)
  | U_inverse => fin (sc_div (f_of_Z (p_T p) RNE 1) x)
  | U_pow _ => None
  end.
Definition sc2 (o : op2) (x y : TT) : option TT :=
  match o with
  | B_add => fin (sc_add x y)
  | B_sub => fin (sc_sub x y)
  | B_mul => fin (sc_mul x y)
  | B_div => fin (sc_div x y)
  | B_max => fin (if Bltb x y then y else x)
  | B_min => fin (if Bltb y x then y else x)
  | B_hull => None
  end.
Definition obind {A B} (o : option A) (k : A -> option B) : option B :=
  match o with Some a => k a | None => None end.

(** The value of the expression, with the variables set to the numbers [rho];
    None when an operation returns an infinity or a NaN, and for the operations
    that make no sense on numbers. *)
Fixpoint scalar (e : expr (fnum p)) (rho : nat -> TT) : option TT :=
  match e with
  | e_var n => fin (rho n)
  | e_num v => fin v
  | e_1 o e1 => obind (scalar e1 rho) (sc1 o)
  | e_2 o e1 e2 => obind (scalar e1 rho) (fun x => obind (scalar e2 rho) (fun y => sc2 o x y))
  | e_in o e1 v => obind (scalar e1 rho) (fun x => sc2 o x v)
  | e_ni o v e1 => obind (scalar e1 rho) (fun y => sc2 o v y)
  | e_nn o v w => sc2 (op_of o) v w
  | e_intersect _ _ | e_widen _ _ => None
  end.
End Scalar.
