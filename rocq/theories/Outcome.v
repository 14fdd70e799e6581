(** * Outcomes of C++ evaluations and the floating-point environment monad

    Everything the library computes is a C++ expression evaluated in a
    floating-point environment whose only component the library touches is the
    rounding mode (detail/c99sub_rounding_control.hpp:23-36).  An evaluation
    either returns, throws one of the library's exceptions, stops in a failed
    [assert], or has undefined behaviour.  [NoFuel] is not a C++ outcome: it is
    returned by the two model functions that carry a recursion budget (the
    unbounded loop of nth_root and the argument reduction of cos) when that
    budget is too small, and every theorem about them excludes it. *)

From Coq Require Import ZArith Bool.

(** The four directions of [fegetround]/[fesetround]
    (detail/c99sub_rounding_control.hpp:27-32). *)
Inductive rmode := RNE | RDN | RUP | RZR.

(** Exceptions: checking.hpp:22-28 (std::runtime_error "empty interval
    created"), checking.hpp:30-36 (std::invalid_argument "invalid number"),
    interval.hpp:22-29 (comparison_error).  [NumberError] stands for whatever a
    user-defined exact number type throws on a division by zero. *)
Inductive exn := EmptyCreated | InvalidNumber | ComparisonError | NumberError.

Inductive outcome (A : Type) : Type :=
| Ok (a : A)
| Throw (e : exn)
| AssertFail
| UB
| NoFuel.
Arguments Ok {A} a.
Arguments Throw {A} e.
Arguments AssertFail {A}.
Arguments UB {A}.
Arguments NoFuel {A}.

Definition omap {A B} (f : A -> B) (o : outcome A) : outcome B :=
  match o with
  | Ok a => Ok (f a) | Throw e => Throw e | AssertFail => AssertFail
  | UB => UB | NoFuel => NoFuel
  end.

(** A computation reads and writes the rounding mode. *)
Definition M (A : Type) : Type := rmode -> outcome A * rmode.

Definition ret {A} (a : A) : M A := fun s => (Ok a, s).
Definition fail {A} (o : outcome A) : M A := fun s => (o, s).
Definition throw {A} (e : exn) : M A := fun s => (Throw e, s).

Definition bind {A B} (m : M A) (k : A -> M B) : M B := fun s =>
  let (o, s1) := m s in
  match o with
  | Ok a => k a s1
  | Throw e => (Throw e, s1)
  | AssertFail => (AssertFail, s1)
  | UB => (UB, s1)
  | NoFuel => (NoFuel, s1)
  end.

Notation "'let!' x := m 'in' k" := (bind m (fun x => k))
  (at level 200, x pattern, m at level 100, k at level 200, right associativity).
Notation "m1 ;;; m2" := (bind m1 (fun _ => m2))
  (at level 100, right associativity).

(** C++ leaves the order in which function arguments are evaluated
    unspecified.  [args2 o m1 m2] evaluates both in the order chosen by [o].
    (They are indeterminately sequenced: no interleaving inside a call.) *)
Definition args2 {A B} (o : bool) (m1 : M A) (m2 : M B) : M (A * B) :=
  if o then let! a := m1 in let! b := m2 in ret (a, b)
  else let! b := m2 in let! a := m1 in ret (a, b).

(** Pure computation whose only effect is failure, reading the mode. *)
Definition under_mode {A} (f : rmode -> outcome A) : M A := fun s => (f s, s).

(** Headers, used to name the sites of unspecified evaluation order. *)
Inductive hdr := H_interval | H_arith | H_arith2 | H_arith3 | H_division
  | H_utility | H_transc | H_constants | H_checking | H_limits | H_integer | H_user.
Definition site : Type := (hdr * Z)%type.
