(** * examples/transc.cpp: transcendental functions from MPFR

    The MPFR library is an oracle; its numbers are an abstract type. *)

From Coq Require Import ZArith Bool.
From Verif Require Import Outcome Base Checking Interval FloatNum Transc.

(** The part of MPFR that the example uses: numbers of the default precision,
    mpfr_init_set_d, mpfr_get_d and the fourteen functions.  The functions do not
    depend on the rounding mode of the processor and leave it unchanged.
    Allocation (mpfr_init, mpfr_clear) is not modelled. *)
Record mpfr (p : platform) := {
  mp_t : Type;
  mp_set_d : flt (p_T p) -> rmode -> mp_t;
  mp_get_d : mp_t -> rmode -> flt (p_T p);
  mp_fun : tfun -> mp_t -> rmode -> mp_t
}.
Arguments mp_t {p}. Arguments mp_set_d {p}. Arguments mp_get_d {p}. Arguments mp_fun {p}.

(** examples/transc.cpp:24-31 *)
Definition invoke_mpfr {p} (M : mpfr p) (x : flt (p_T p)) (f : tfun) (r : rmode) : flt (p_T p) :=
  let xx := mp_set_d M x RNE in
  let xx := mp_fun M f xx r in
  mp_get_d M xx r.
(** examples/transc.cpp:33-49; the arithmetic of the class is rounded_arith_opp
    (line 20), chosen by the policy. *)
Definition full_rounding {p} (M : mpfr p) : transc (fnum p) := {|
  tr_down := fun f (x : T (fnum p)) => ret (invoke_mpfr M x f RDN : T (fnum p));
  tr_up := fun f (x : T (fnum p)) => ret (invoke_mpfr M x f RUP : T (fnum p))
|}.
