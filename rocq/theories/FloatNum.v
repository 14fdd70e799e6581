(** * IEEE 754 binary floating-point base types

    The base types float, double and long double, as instances of one
    parameterised family built on Flocq's [binary_float].  NaN payloads and
    exception flags are not modelled (the library uses neither). *)

From Coq Require Import ZArith Bool Lia.
From Flocq Require Import Core BinarySingleNaN.
From Verif Require Import Outcome Base Checking.
Local Open Scope Z_scope.

(** One binary interchange-style format: precision (with the hidden bit) and
    maximal exponent, as in Flocq: largest finite number below 2^emax. *)
Record fmt := {
  prec : Z;
  emax : Z;
  fmt_prec_gt_0 : 0 < prec;
  fmt_prec_lt_emax : prec < emax
}.

#[global] Instance fmt_P0 (f : fmt) : Prec_gt_0 (prec f) := fmt_prec_gt_0 f.
#[global] Instance fmt_PE (f : fmt) : Prec_lt_emax (prec f) (emax f) := fmt_prec_lt_emax f.

Definition flt (f : fmt) : Type := binary_float (prec f) (emax f).

(** Every number of [f] is a number of [g]. *)
Definition fmt_sub (f g : fmt) : Prop := prec f <= prec g /\ emax f <= emax g.

(** A floating-point platform for one base type:
    - [p_T]: the base type;
    - [p_X]: the format in which expressions are evaluated (FLT_EVAL_METHOD);
    - [p_R]: the format in which rint works: double for
      detail/c99sub_rounding_control.hpp:21,35 (the only overload visible there
      is [double rint(double)]), 80-bit for the x87 frndint instruction. *)
Record platform := {
  p_T : fmt;
  p_X : fmt;
  p_R : fmt;
  p_TX : fmt_sub p_T p_X
}.

Definition md (m : rmode) : mode :=
  match m with RNE => mode_NE | RDN => mode_DN | RUP => mode_UP | RZR => mode_ZR end.

(** Conversion between formats under the current mode. *)
Definition fconv (f g : fmt) (m : rmode) (x : flt f) : flt g :=
  match x with
  | B754_nan => B754_nan
  | B754_zero s => B754_zero s
  | B754_infinity s => B754_infinity s
  | B754_finite s mx ex _ =>
      binary_normalize (prec g) (emax g) (fmt_P0 g) (fmt_PE g) (md m)
        (cond_Zopp s (Zpos mx)) ex s
  end.

(** Conversion from an integer under the current mode. *)
Definition f_of_Z (f : fmt) (m : rmode) (z : Z) : flt f :=
  binary_normalize (prec f) (emax f) (fmt_P0 f) (fmt_PE f) (md m) z 0 false.

Definition fadd {f} (m : rmode) (x y : flt f) : flt f := Bplus (md m) x y.
Definition fsub {f} (m : rmode) (x y : flt f) : flt f := Bminus (md m) x y.
Definition fmul {f} (m : rmode) (x y : flt f) : flt f := Bmult (md m) x y.
Definition fdiv {f} (m : rmode) (x y : flt f) : flt f := Bdiv (md m) x y.
Definition fsqrt {f} (m : rmode) (x : flt f) : flt f := Bsqrt (md m) x.
Definition fopp {f} (x : flt f) : flt f := Bopp x.
Definition frint {f} (m : rmode) (x : flt f) : flt f := Bnearbyint (md m) x.

Definition fnum (p : platform) : num := {|
  T := flt (p_T p);
  X := flt (p_X p);
  n_lt := Bltb;
  n_le := Bleb;
  n_eq := Beqb;
  n_cst := f_of_Z (p_T p) RNE;
  n_of_int := fun m z => Ok (f_of_Z (p_T p) m z);
  n_load := fconv (p_T p) (p_X p) RNE;
  n_store := fun m x => Ok (fconv (p_X p) (p_T p) m x);
  x_add := fun m x y => Ok (fadd m x y);
  x_sub := fun m x y => Ok (fsub m x y);
  x_mul := fun m x y => Ok (fmul m x y);
  x_div := fun m x y => Ok (fdiv m x y);
  x_opp := fun x => Ok (fopp x);
  x_lt := Bltb;
  x_sqrt := fun m x => Ok (fsqrt m x);
  n_rint := fun m x =>
    Ok (fconv (p_R p) (p_T p) m (frint m (fconv (p_T p) (p_R p) m x)));
  n_floor := fun x => Ok (frint RDN x);
  n_ceil := fun x => Ok (frint RUP x);
  n_has_inf := true;
  n_has_nan := true;
  n_inf := B754_infinity false;
  n_nan := B754_nan
|}.

(** The conversions accepted by the converting constructors: another
    floating-point format, or an integer type with [s_opp] as in C++. *)
Definition src_float (p : platform) (g : fmt) : source (fnum p) := {|
  U := flt g;
  s_opp := fun v => Ok (fopp v);
  s_toT := fun m v => Ok (fconv g (p_T p) m v) : outcome (T (fnum p));
  s_le := Bleb;
  s_ne := fun v w => negb (Beqb v w)
|}.

(** Signed integers of [w] bits: negating the least one is undefined. *)
Definition src_sint (p : platform) (w : Z) : source (fnum p) := {|
  U := Z;
  s_opp := fun v => if v =? - 2 ^ (w - 1) then UB else Ok (- v);
  s_toT := fun m v => Ok (f_of_Z (p_T p) m v) : outcome (T (fnum p));
  s_le := Z.leb;
  s_ne := fun v w => negb (v =? w)
|}.
(** Unsigned integers of [w] bits (at least as wide as int, so that unary
    minus is not performed on a promoted signed value): negation wraps. *)
Definition src_uint (p : platform) (w : Z) : source (fnum p) := {|
  U := Z;
  s_opp := fun v => Ok ((- v) mod 2 ^ w);
  s_toT := fun m v => Ok (f_of_Z (p_T p) m v) : outcome (T (fnum p));
  s_le := Z.leb;
  s_ne := fun v w => negb (v =? w)
|}.

(** Concrete formats and platforms. *)
Definition binary32 : fmt := {| prec := 24; emax := 128;
  fmt_prec_gt_0 := eq_refl; fmt_prec_lt_emax := eq_refl |}.
Definition binary64 : fmt := {| prec := 53; emax := 1024;
  fmt_prec_gt_0 := eq_refl; fmt_prec_lt_emax := eq_refl |}.
Definition x87_80 : fmt := {| prec := 64; emax := 16384;
  fmt_prec_gt_0 := eq_refl; fmt_prec_lt_emax := eq_refl |}.

Lemma fmt_sub_refl f : fmt_sub f f.
Proof. split; lia. Qed.
Lemma fmt_sub_32_80 : fmt_sub binary32 x87_80.
Proof. split; cbn; lia. Qed.
Lemma fmt_sub_64_80 : fmt_sub binary64 x87_80.
Proof. split; cbn; lia. Qed.

(** x86-64 (SSE registers for float and double, C99 rint in double). *)
Definition float_sse : platform :=
  {| p_T := binary32; p_X := binary32; p_R := binary64; p_TX := fmt_sub_refl _ |}.
Definition double_sse : platform :=
  {| p_T := binary64; p_X := binary64; p_R := binary64; p_TX := fmt_sub_refl _ |}.
Definition long_double_c99 : platform :=
  {| p_T := x87_80; p_X := x87_80; p_R := binary64; p_TX := fmt_sub_refl _ |}.
(** i386 with x87 registers and frndint. *)
Definition float_x87 : platform :=
  {| p_T := binary32; p_X := x87_80; p_R := x87_80; p_TX := fmt_sub_32_80 |}.
Definition double_x87 : platform :=
  {| p_T := binary64; p_X := x87_80; p_R := x87_80; p_TX := fmt_sub_64_80 |}.
Definition long_double_x87 : platform :=
  {| p_T := x87_80; p_X := x87_80; p_R := x87_80; p_TX := fmt_sub_refl _ |}.

(** ** The policies a user can choose for these types *)

(** rounded_arith_std or rounded_arith_opp over the hardware control. *)
Inductive rkind := Std | Opp.
Definition farith (p : platform) (k : rkind) : arith (fnum p) :=
  match k with
  | Std => arith_std (fnum p) (control_hw (fnum p))
  | Opp => arith_opp (fnum p) (control_hw (fnum p))
  end.

(** The checking policies of doc/checking.htm. *)
Inductive ckind := CkBase | CkNoNan | CkCatchNan | CkNoEmpty | CkStrict | CkNoEmptyCatchNan.
Definition fchecking (p : platform) (debug : bool) (c : ckind) : checking (fnum p) :=
  let N := fnum p in
  match c with
  | CkBase => checking_base N debug
  | CkNoNan => checking_no_nan N (checking_base N debug)
  | CkCatchNan => checking_catch_nan N InvalidNumber (checking_base N debug)
  | CkNoEmpty => checking_no_empty N debug EmptyCreated (checking_base N debug)
  | CkStrict => checking_strict N debug
  | CkNoEmptyCatchNan =>
      checking_catch_nan N InvalidNumber
        (checking_no_empty N debug EmptyCreated (checking_base N debug))
  end.

(** policies<save_state<rounded_arith_*<T> >, checking_*<T> >; the default
    interval<double> is [Save], [Opp], [CkStrict]: hw_rounding.hpp:54-67,
    detail/interval_prototype.hpp:26-35. *)
Definition fpol (p : platform) (pr : protection) (k : rkind) (debug : bool)
    (c : ckind) (ord : site -> bool) : policy (fnum p) := {|
  p_prot := pr;
  p_ctl := control_hw (fnum p);
  p_ar := farith p k;
  p_ck := fchecking p debug c;
  p_ord := ord
|}.
