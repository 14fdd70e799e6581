(** * Specification vocabulary

    What the bounds and intervals of the model mean, independently of how the
    library computes.  No definition here mentions a library function. *)

From Coq Require Import Reals ZArith Lra.
From Flocq Require Import Core BinarySingleNaN.
From Verif Require Import Outcome Base Interval FloatNum.
Local Open Scope R_scope.

(** ** Extended reals *)
Inductive ext := NaN | NInf | Fin (r : R) | PInf.

(** The order of the extended reals; NaN is not comparable to anything. *)
Definition xle (a b : ext) : Prop :=
  match a, b with
  | NaN, _ | _, NaN => False
  | NInf, _ => True
  | _, PInf => True
  | Fin x, Fin y => x <= y
  | _, _ => False
  end.
Definition xlt (a b : ext) : Prop :=
  match a, b with
  | NaN, _ | _, NaN => False
  | NInf, NInf => False
  | NInf, _ => True
  | PInf, _ => False
  | _, PInf => True
  | Fin x, Fin y => x < y
  | _, _ => False
  end.

(** ** Meaning of floating-point numbers *)
Definition fval {f : fmt} (x : flt f) : ext :=
  match x with
  | B754_nan => NaN
  | B754_infinity true => NInf
  | B754_infinity false => PInf
  | _ => Fin (B2R x)
  end.

Section Meaning.
Context {N : num} (val : T N -> ext).

(** The real [r] is a member of the interval [x]. *)
Definition mem (x : itv N) (r : R) : Prop :=
  xle (val (low x)) (Fin r) /\ xle (Fin r) (val (up x)).

(** A valid interval: ordered bounds (so neither is NaN) that are not both the
    same infinity.  Exactly the intervals with at least one real member. *)
Definition valid (x : itv N) : Prop :=
  xle (val (low x)) (val (up x)) /\ val (low x) <> PInf /\ val (up x) <> NInf.

(** [t] is the greatest representable number below [e] / least above. *)
Definition RD (e : ext) (t : T N) : Prop :=
  xle (val t) e /\ forall t', xle (val t') e -> xle (val t') (val t).
Definition RU (e : ext) (t : T N) : Prop :=
  xle e (val t) /\ forall t', xle e (val t') -> xle (val t) (val t').

(** The interval contains the set. *)
Definition encloses (z : itv N) (S : R -> Prop) : Prop := forall r, S r -> mem z r.

(** [z] contains [S], and every interval with representable bounds that contains
    [S] contains [z]. *)
Definition tightest (z : itv N) (S : R -> Prop) : Prop :=
  encloses z S /\
  forall w, encloses w S ->
    xle (val (low w)) (val (low z)) /\ xle (val (up z)) (val (up w)).

(** [z] denotes exactly the set [S]. *)
Definition denotes (z : itv N) (S : R -> Prop) : Prop := forall r, mem z r <-> S r.

(** Two intervals have the same bounds (up to the sign of zero). *)
Definition same (x y : itv N) : Prop :=
  val (low x) = val (low y) /\ val (up x) = val (up y).

(** No real member. *)
Definition no_member (z : itv N) : Prop := forall r, ~ mem z r.
End Meaning.

(** Images of sets of reals. *)
Definition image1 (f : R -> R) (X : R -> Prop) : R -> Prop :=
  fun t => exists r, X r /\ t = f r.
Definition image2 (f : R -> R -> R) (X Y : R -> Prop) : R -> Prop :=
  fun t => exists r s, X r /\ Y s /\ t = f r s.
(** Quotients by the nonzero members of [Y]. *)
Definition quotients (X Y : R -> Prop) : R -> Prop :=
  fun t => exists r s, X r /\ Y s /\ s <> 0 /\ t = r / s.
Definition nonempty (X : R -> Prop) : Prop := exists r, X r.
Definition point (v : R) : R -> Prop := fun r => r = v.
(** The reals between two extended reals. *)
Definition between (a b : ext) : R -> Prop := fun r => xle a (Fin r) /\ xle (Fin r) b.

(** The real n-th roots of the elements of [X] (the nonnegative ones if n is even). *)
Definition real_roots (n : Z) (X : R -> Prop) (t : R) : Prop :=
  X (t ^ Z.to_nat n) /\ (Z.even n = true -> 0 <= t).
(** The largest finite number of a format. *)
Definition largest (f : fmt) : R := bpow radix2 (emax f) - bpow radix2 (emax f - prec f).
(** The base format and the format in which rint works are nested (true on every
    platform of FloatNum.v). *)
Definition rint_ok (p : platform) : Prop := fmt_sub (p_T p) (p_R p) \/ fmt_sub (p_R p) (p_T p).
(** Not an infinity. *)
Definition is_fin (e : ext) : Prop := exists r, e = Fin r.

(** ** Extended-real arithmetic (IEEE special cases), NaN when undefined *)
Definition xopp (a : ext) : ext :=
  match a with NaN => NaN | NInf => PInf | Fin x => Fin (- x) | PInf => NInf end.
Definition xadd (a b : ext) : ext :=
  match a, b with
  | NaN, _ | _, NaN => NaN
  | PInf, NInf | NInf, PInf => NaN
  | PInf, _ | _, PInf => PInf
  | NInf, _ | _, NInf => NInf
  | Fin x, Fin y => Fin (x + y)
  end.
Definition xsub (a b : ext) : ext := xadd a (xopp b).
Definition xmul (a b : ext) : ext :=
  match a, b with
  | NaN, _ | _, NaN => NaN
  | Fin x, Fin y => Fin (x * y)
  | PInf, PInf | NInf, NInf => PInf
  | PInf, NInf | NInf, PInf => NInf
  | PInf, Fin x | Fin x, PInf =>
      if Rlt_dec 0 x then PInf else if Rlt_dec x 0 then NInf else NaN
  | NInf, Fin x | Fin x, NInf =>
      if Rlt_dec 0 x then NInf else if Rlt_dec x 0 then PInf else NaN
  end.
(** Division by zero is left undefined. *)
Definition xdiv (a b : ext) : ext :=
  match a, b with
  | NaN, _ | _, NaN => NaN
  | Fin x, Fin y => if Req_EM_T y 0 then NaN else Fin (x / y)
  | Fin x, _ => Fin 0
  | PInf, Fin x => if Rlt_dec 0 x then PInf else if Rlt_dec x 0 then NInf else NaN
  | NInf, Fin x => if Rlt_dec 0 x then NInf else if Rlt_dec x 0 then PInf else NaN
  | _, _ => NaN
  end.
Definition xsqrt (a : ext) : ext :=
  match a with
  | Fin x => if Rle_dec 0 x then Fin (sqrt x) else NaN
  | PInf => PInf
  | _ => NaN
  end.

(** Shorthands for floating-point intervals. *)
Definition fvalid {p} (x : itv (fnum p)) : Prop := valid (N := fnum p) fval x.
Definition fmem {p} (x : itv (fnum p)) (r : R) : Prop := mem (N := fnum p) fval x r.
Definition ftightest {p} (z : itv (fnum p)) (S : R -> Prop) : Prop :=
  tightest (N := fnum p) fval z S.
Definition fsame {p} (x y : itv (fnum p)) : Prop := same (N := fnum p) fval x y.
Definition fencloses {p} (z : itv (fnum p)) (S : R -> Prop) : Prop :=
  encloses (N := fnum p) fval z S.
Definition fdenotes {p} (z : itv (fnum p)) (S : R -> Prop) : Prop :=
  denotes (N := fnum p) fval z S.
Definition fno_member {p} (z : itv (fnum p)) : Prop := no_member (N := fnum p) fval z.

(** ** Observable behaviour of a call *)

(** [m] returns [a] normally, whatever the rounding mode at the call, and
    leaves that mode as it was. *)
Definition returns {A} (m : M A) (a : A) : Prop := forall mode, m mode = (Ok a, mode).
(** [m] always throws [e], and leaves the rounding mode as it was. *)
Definition throws {A} (m : M A) (e : exn) : Prop := forall mode, m mode = (Throw e, mode).

(** The checking policies under which an empty interval can exist; the others
    throw when one would be created. *)
Definition allows_empty (c : ckind) : bool :=
  match c with
  | CkBase | CkNoNan | CkCatchNan => true
  | CkNoEmpty | CkStrict | CkNoEmptyCatchNan => false
  end.
(** An empty interval: its bounds are not ordered (one may be NaN), so it has no
    member. *)
Definition fempty {p} (x : itv (fnum p)) : Prop := ~ xle (fval (low x)) (fval (up x)).
(** The intervals a program can hold under a policy. *)
Definition ok_interval {p} (c : ckind) (x : itv (fnum p)) : Prop :=
  fvalid x \/ (allows_empty c = true /\ fempty x).
(** The call yields an empty interval, or the policy's exception. *)
Definition gives_empty {p} (c : ckind) (m : M (itv (fnum p))) : Prop :=
  if allows_empty c then exists z, returns m z /\ fempty z
  else throws m EmptyCreated.

(** The result of a member function that computes [m] and then stores it: on an
    exception the object [x] is as it was. *)
Definition updated {N} (x : itv N) (m : M (itv N)) (s : rmode) : outcome unit * itv N * rmode :=
  match m s with
  | (Ok z, s') => (Ok tt, z, s')
  | (Throw e, s') => (Throw e, x, s')
  | (AssertFail, s') => (AssertFail, x, s')
  | (UB, s') => (UB, x, s')
  | (NoFuel, s') => (NoFuel, x, s')
  end.
