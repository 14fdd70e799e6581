(** * Base number types, rounding controls and directed arithmetic

    Models rounding.hpp, rounded_arith.hpp and the interface of the
    [rounding_control] specialisations. *)

From Coq Require Import ZArith Bool.
From Verif Require Import Outcome.

(** ** The base number type

    [T] is the template parameter of [interval<T, Policies>].  [X] is the type
    in which the compiler evaluates expressions on [T]: [T] itself with SSE
    (FLT_EVAL_METHOD = 0), the 80-bit registers with x87.  An operation on [X]
    is rounded according to the current mode; converting an [X] to a [T]
    ([n_store]) rounds again.  Failure ([UB], [NumberError]) is possible for
    integer-like and exact types. *)
Record num := {
  T : Type;
  X : Type;
  n_lt : T -> T -> bool;               (* operator<  *)
  n_le : T -> T -> bool;               (* operator<= *)
  n_eq : T -> T -> bool;               (* operator== *)
  n_cst : Z -> T;                      (* static_cast<T>(0), (1), (2) *)
  n_of_int : rmode -> Z -> outcome T;  (* T tk(k): int to T conversion *)
  n_load : T -> X;
  n_store : rmode -> X -> outcome T;
  x_add : rmode -> X -> X -> outcome X;
  x_sub : rmode -> X -> X -> outcome X;
  x_mul : rmode -> X -> X -> outcome X;
  x_div : rmode -> X -> X -> outcome X;
  x_opp : X -> outcome X;
  x_lt : X -> X -> bool;
  x_sqrt : rmode -> X -> outcome X;
  n_rint : rmode -> T -> outcome T;    (* rint / frndint under the current mode *)
  n_floor : T -> outcome T;
  n_ceil : T -> outcome T;
  (* std::numeric_limits<T> *)
  n_has_inf : bool;
  n_has_nan : bool;
  n_inf : T;
  n_nan : T
}.

Section Ops.
Context {N : num}.

Definition zero : T N := n_cst N 0.
Definition one : T N := n_cst N 1.

(** operator> and operator>= and operator!= on the base type. *)
Definition n_gt (a b : T N) : bool := n_lt N b a.
Definition n_ge (a b : T N) : bool := n_le N b a.
Definition n_ne (a b : T N) : bool := negb (n_eq N a b).

(** std::min, std::max: min(a,b) is b if b < a else a; max(a,b) is b if a < b else a. *)
Definition std_min (a b : T N) : T N := if n_lt N b a then b else a.
Definition std_max (a b : T N) : T N := if n_lt N a b then b else a.

(** Evaluation of the sub-expressions used by the rounding classes. *)
Definition e_ld (a : T N) : M (X N) := ret (n_load N a).
Definition e_add (a b : X N) : M (X N) := under_mode (fun m => x_add N m a b).
Definition e_sub (a b : X N) : M (X N) := under_mode (fun m => x_sub N m a b).
Definition e_mul (a b : X N) : M (X N) := under_mode (fun m => x_mul N m a b).
Definition e_div (a b : X N) : M (X N) := under_mode (fun m => x_div N m a b).
Definition e_opp (a : X N) : M (X N) := under_mode (fun _ => x_opp N a).
Definition e_sqrt (a : X N) : M (X N) := under_mode (fun m => x_sqrt N m a).
Definition e_store (a : X N) : M (T N) := under_mode (fun m => n_store N m a).

(** [-x] used as a [T]: static_cast<T>(-x), or passed to a [T const&]. *)
Definition neg (a : T N) : M (T N) := let! x := e_opp (n_load N a) in e_store x.

(** detail/test_input.hpp:20-27 *)
Definition is_zero (v : T N) : bool := n_eq N v zero.
Definition is_neg (v : T N) : bool := n_lt N v zero.
Definition is_pos (v : T N) : bool := n_gt v zero.
End Ops.

(** ** Rounding control

    The interface of [rounding_control<T>] (rounding.hpp:21-32 for the default
    one, detail/*_rounding_control.hpp for the hardware ones). *)
Record control (N : num) := {
  rc_get : M rmode;
  rc_set : rmode -> M unit;
  rc_up : M unit;
  rc_down : M unit;
  rc_near : M unit;
  rc_to_int : T N -> M (T N);
  rc_force : X N -> M (T N)
}.
Arguments rc_get {N} c.
Arguments rc_set {N} c m.
Arguments rc_up {N} c.
Arguments rc_down {N} c.
Arguments rc_near {N} c.
Arguments rc_to_int {N} c x.
Arguments rc_force {N} c x.

Definition set_mode (m : rmode) : M unit := fun _ => (Ok tt, m).

(** rounding.hpp:21-32: the default control does nothing.  Its [rounding_mode]
    variable stays uninitialised and is never used; it is modelled as RNE. *)
Definition control_default (N : num) : control N := {|
  rc_get := ret RNE;
  rc_set := fun _ => ret tt;
  rc_up := ret tt;
  rc_down := ret tt;
  rc_near := ret tt;
  rc_to_int := fun x => ret x;
  rc_force := e_store
|}.

(** detail/c99sub_rounding_control.hpp:23-36 with
    detail/c99_rounding_control.hpp:20-42 (and, for the effect on the mode,
    detail/x86_rounding_control.hpp:49-100): fesetround/fegetround, rint, and a
    store to a volatile variable of type T. *)
Definition control_hw (N : num) : control N := {|
  rc_get := fun s => (Ok s, s);
  rc_set := set_mode;
  rc_up := set_mode RUP;
  rc_down := set_mode RDN;
  rc_near := set_mode RNE;
  rc_to_int := fun x => under_mode (fun m => n_rint N m x);
  rc_force := e_store
|}.

(** ** Conversions from another number type U

    [conv_down]/[conv_up] and the converting constructors are templates over
    the source type.  [s_toT] is the implicit conversion U -> T under the
    current mode, [s_opp] is the unary minus of U. *)
Record source (N : num) := {
  U : Type;
  s_opp : U -> outcome U;
  s_toT : rmode -> U -> outcome (T N);
  s_le : U -> U -> bool;
  s_ne : U -> U -> bool;
}.
Arguments U {N} s.
Arguments s_opp {N} s v.
Arguments s_toT {N} s m v.
Arguments s_le {N} s v w.
Arguments s_ne {N} s v w.

(** ** Directed arithmetic: the public members of rounded_arith_{exact,std,opp} *)
Record arith (N : num) := {
  ar_init : M unit;
  add_down : T N -> T N -> M (T N);
  add_up : T N -> T N -> M (T N);
  sub_down : T N -> T N -> M (T N);
  sub_up : T N -> T N -> M (T N);
  mul_down : T N -> T N -> M (T N);
  mul_up : T N -> T N -> M (T N);
  div_down : T N -> T N -> M (T N);
  div_up : T N -> T N -> M (T N);
  ar_median : T N -> T N -> M (T N);
  sqrt_down : T N -> M (T N);
  sqrt_up : T N -> M (T N);
  int_down : T N -> M (T N);
  int_up : T N -> M (T N);
  conv_down : forall s : source N, U s -> M (T N);
  conv_up : forall s : source N, U s -> M (T N)
}.
Arguments ar_init {N} a.
Arguments add_down {N} a x y.
Arguments add_up {N} a x y.
Arguments sub_down {N} a x y.
Arguments sub_up {N} a x y.
Arguments mul_down {N} a x y.
Arguments mul_up {N} a x y.
Arguments div_down {N} a x y.
Arguments div_up {N} a x y.
Arguments ar_median {N} a x y.
Arguments sqrt_down {N} a x.
Arguments sqrt_up {N} a x.
Arguments int_down {N} a x.
Arguments int_up {N} a x.
Arguments conv_down {N} a s v.
Arguments conv_up {N} a s v.

Section Arith.
Context (N : num) (C : control N).

(** The expressions appearing in the macros. *)
Definition ex_add (x y : T N) : M (X N) := e_add (n_load N x) (n_load N y).
Definition ex_sub (x y : T N) : M (X N) := e_sub (n_load N x) (n_load N y).
Definition ex_mul (x y : T N) : M (X N) := e_mul (n_load N x) (n_load N y).
Definition ex_div (x y : T N) : M (X N) := e_div (n_load N x) (n_load N y).
(** (x + y) / 2 *)
Definition ex_mid (x y : T N) : M (X N) :=
  let! t := ex_add x y in e_div t (n_load N (n_cst N 2)).
Definition ex_sqrt (x : T N) : M (X N) := e_sqrt (n_load N x).
(** Implicit conversion of a U argument to the T parameter of force_rounding. *)
Definition ex_conv (s : source N) (v : U s) : M (X N) :=
  let! t := under_mode (fun m => s_toT s m v) in e_ld t.

(** rounded_arith.hpp:26-48: T result = EXPR, no rounding control. *)
Definition arith_exact : arith N :=
  let ST (e : M (X N)) := let! t := e in e_store t in {|
  ar_init := ret tt;
  add_down := fun x y => ST (ex_add x y);
  add_up := fun x y => ST (ex_add x y);
  sub_down := fun x y => ST (ex_sub x y);
  sub_up := fun x y => ST (ex_sub x y);
  mul_down := fun x y => ST (ex_mul x y);
  mul_up := fun x y => ST (ex_mul x y);
  div_down := fun x y => ST (ex_div x y);
  div_up := fun x y => ST (ex_div x y);
  ar_median := fun x y => ST (ex_mid x y);
  sqrt_down := fun x => ST (ex_sqrt x);
  sqrt_up := fun x => ST (ex_sqrt x);
  int_down := fun x => under_mode (fun _ => n_floor N x);
  int_up := fun x => under_mode (fun _ => n_ceil N x);
  conv_down := fun s v => under_mode (fun m => s_toT s m v);
  conv_up := fun s v => under_mode (fun m => s_toT s m v)
|}.

(** rounded_arith.hpp:50-76 *)
Definition arith_std : arith N :=
  let DN (e : M (X N)) := rc_down C ;;; let! t := e in rc_force C t in
  let NR (e : M (X N)) := rc_near C ;;; let! t := e in rc_force C t in
  let UP (e : M (X N)) := rc_up C ;;; let! t := e in rc_force C t in {|
  ar_init := ret tt;
  add_down := fun x y => DN (ex_add x y);
  add_up := fun x y => UP (ex_add x y);
  sub_down := fun x y => DN (ex_sub x y);
  sub_up := fun x y => UP (ex_sub x y);
  mul_down := fun x y => DN (ex_mul x y);
  mul_up := fun x y => UP (ex_mul x y);
  div_down := fun x y => DN (ex_div x y);
  div_up := fun x y => UP (ex_div x y);
  ar_median := fun x y => NR (ex_mid x y);
  sqrt_down := fun x => DN (ex_sqrt x);
  sqrt_up := fun x => UP (ex_sqrt x);
  int_down := fun x => rc_down C ;;; rc_to_int C x;
  int_up := fun x => rc_up C ;;; rc_to_int C x;
  conv_down := fun s v => DN (ex_conv s v);
  conv_up := fun s v => UP (ex_conv s v)
|}.

(** rounded_arith.hpp:78-114 *)
Definition arith_opp : arith N :=
  let DN (e : M (X N)) :=
    rc_down C ;;; let! t := e in let! r := rc_force C t in rc_up C ;;; ret r in
  let NR (e : M (X N)) :=
    rc_near C ;;; let! t := e in let! r := rc_force C t in rc_up C ;;; ret r in
  let UP (e : M (X N)) := let! t := e in rc_force C t in
  let UP_NEG (e : M (X N)) := let! t := e in let! r := rc_force C t in neg r in {|
  ar_init := rc_up C;
  (* (-x) - y *)
  add_down := fun x y => UP_NEG (let! nx := e_opp (n_load N x) in e_sub nx (n_load N y));
  add_up := fun x y => UP (ex_add x y);
  (* y - x *)
  sub_down := fun x y => UP_NEG (ex_sub y x);
  sub_up := fun x y => UP (ex_sub x y);
  (* x * (-y) *)
  mul_down := fun x y => UP_NEG (let! ny := e_opp (n_load N y) in e_mul (n_load N x) ny);
  mul_up := fun x y => UP (ex_mul x y);
  (* x / (-y) *)
  div_down := fun x y => UP_NEG (let! ny := e_opp (n_load N y) in e_div (n_load N x) ny);
  div_up := fun x y => UP (ex_div x y);
  ar_median := fun x y => NR (ex_mid x y);
  sqrt_down := fun x => DN (ex_sqrt x);
  sqrt_up := fun x => UP (ex_sqrt x);
  (* -to_int(-x) *)
  int_down := fun x => let! nx := neg x in let! r := rc_to_int C nx in neg r;
  int_up := fun x => rc_to_int C x;
  (* -force_rounding(-v) *)
  conv_down := fun s v =>
    UP_NEG (let! nv := under_mode (fun _ => s_opp s v) in ex_conv s nv);
  conv_up := fun s v => UP (ex_conv s v)
|}.
End Arith.

(** ** Rounding policies: save_state and friends (rounding.hpp:61-97) *)
Inductive protection :=
| Save             (* save_state<Rounding>, rounding.hpp:75-85 *)
| SaveUnprotected  (* detail::save_state_unprotected, rounding.hpp:67-71 *)
| SaveNothing.     (* save_state_nothing, rounding.hpp:87-91 *)

(** [r::unprotected_rounding]: rounding.hpp:70, 84, 90. *)
Definition unprotected (p : protection) : protection :=
  match p with Save => SaveUnprotected | SaveUnprotected => SaveUnprotected
             | SaveNothing => SaveNothing end.

(** ** Checking policies (checking.hpp) *)
Record checking (N : num) := {
  ck_pos_inf : M (T N);
  ck_neg_inf : M (T N);
  ck_nan : M (T N);
  ck_is_nan : T N -> M bool;
  ck_empty_lower : M (T N);
  ck_empty_upper : M (T N);
  ck_is_empty : T N -> T N -> bool
}.
Arguments ck_pos_inf {N} c.
Arguments ck_neg_inf {N} c.
Arguments ck_nan {N} c.
Arguments ck_is_nan {N} c x.
Arguments ck_empty_lower {N} c.
Arguments ck_empty_upper {N} c.
Arguments ck_is_empty {N} c l u.

(** ** Policies (policies.hpp:23-28)

    [p_ord] resolves the unspecified evaluation order at each site. *)
Record policy (N : num) := {
  p_prot : protection;
  p_ctl : control N;
  p_ar : arith N;
  p_ck : checking N;
  p_ord : site -> bool
}.
Arguments p_prot {N} p.
Arguments p_ctl {N} p.
Arguments p_ar {N} p.
Arguments p_ck {N} p.
Arguments p_ord {N} p s.

(** policies.hpp:59-68 *)
Definition unprotect {N} (P : policy N) : policy N := {|
  p_prot := unprotected (p_prot P);
  p_ctl := p_ctl P; p_ar := p_ar P; p_ck := p_ck P; p_ord := p_ord P
|}.

(** policies.hpp:34-52 *)
Definition change_checking {N} (P : policy N) (c : checking N) : policy N := {|
  p_prot := p_prot P; p_ctl := p_ctl P; p_ar := p_ar P; p_ck := c; p_ord := p_ord P
|}.
Definition change_rounding {N} (P Q : policy N) : policy N := {|
  p_prot := p_prot Q; p_ctl := p_ctl Q; p_ar := p_ar Q; p_ck := p_ck P; p_ord := p_ord P
|}.

(** A block opened by [typename Policies::rounding rnd;]: the constructor of
    save_state reads the mode and calls init, the destructor restores the mode
    on normal exit and when an exception propagates (rounding.hpp:79-83).
    After a failed assertion or undefined behaviour nothing is guaranteed. *)
Definition with_rnd {N A} (P : policy N) (body : M A) : M A :=
  match p_prot P with
  | Save =>
      let! m := rc_get (p_ctl P) in
      ar_init (p_ar P) ;;;
      (fun s =>
         let (o, s1) := body s in
         match o with
         | Ok a => (rc_set (p_ctl P) m ;;; ret a) s1
         | Throw e => (rc_set (p_ctl P) m ;;; throw e) s1
         | o => (o, s1)
         end)
  | _ => body
  end.
