(** * Specification of the transcendental functions

    [graph f r t]: t is the value of the function f at the real number r.  The
    inverse functions are specified by what they invert. *)

From Coq Require Import Reals ZArith Lra.
From Verif Require Import Outcome Base Interval FloatNum Spec Transc.
Local Open Scope R_scope.

Definition graph (f : tfun) (r t : R) : Prop :=
  match f with
  | Fexp => t = exp r
  | Flog => exp t = r
  | Fsin => t = sin r
  | Fcos => t = cos r
  | Ftan => cos r <> 0 /\ t = sin r / cos r
  | Fasin => - (PI / 2) <= t <= PI / 2 /\ sin t = r
  | Facos => 0 <= t <= PI /\ cos t = r
  | Fatan => - (PI / 2) < t < PI / 2 /\ sin t / cos t = r
  | Fsinh => t = (exp r - exp (- r)) / 2
  | Fcosh => t = (exp r + exp (- r)) / 2
  | Ftanh => t = (exp r - exp (- r)) / (exp r + exp (- r))
  | Fasinh => (exp t - exp (- t)) / 2 = r
  | Facosh => 0 <= t /\ (exp t + exp (- t)) / 2 = r
  | Fatanh => (exp t - exp (- t)) / (exp t + exp (- t)) = r
  end.

(** The same at infinite arguments: limits. *)
Definition xgraph (f : tfun) (e v : ext) : Prop :=
  match e with
  | Fin r => exists t, v = Fin t /\ graph f r t
  | PInf =>
      match f with
      | Fexp | Flog | Fsinh | Fcosh | Fasinh | Facosh => v = PInf
      | Fatan => v = Fin (PI / 2)
      | Ftanh => v = Fin 1
      | _ => False
      end
  | NInf =>
      match f with
      | Fexp => v = Fin 0
      | Fsinh | Fasinh => v = NInf
      | Fcosh => v = PInf
      | Fatan => v = Fin (- (PI / 2))
      | Ftanh => v = Fin (- 1)
      | _ => False
      end
  | NaN => False
  end.

(** The domain that doc/rounding.htm ("Requirements") writes next to f_down and
    f_up; they need not work elsewhere.  There is no sin_down. *)
Definition doc_domain (f : tfun) (e : ext) : Prop :=
  match f with
  | Fexp | Fatan | Fsinh | Fcosh | Ftanh | Fasinh => e <> NaN
  | Flog => xlt (Fin 0) e
  | Fsin => False
  | Fcos => exists r, e = Fin r /\ 0 <= r <= 2 * PI
  | Ftan => exists r, e = Fin r /\ - (PI / 2) < r < PI / 2
  | Fasin | Facos | Fatanh => xle (Fin (-1)) e /\ xle e (Fin 1)
  | Facosh => xle (Fin 1) e
  end.
(** They return a lower and an upper bound of the value, in every mode of [ready],
    and stay in [ready]. *)
Definition doc_down {N} (val : T N -> ext) (ready : rmode -> Prop) (R : transc N) (f : tfun) : Prop :=
  forall a e, doc_domain f (val a) -> xgraph f (val a) e ->
  exists t, xle (val t) e /\ forall s, ready s -> exists s', ready s' /\ tr_down R f a s = (Ok t, s').
Definition doc_up {N} (val : T N -> ext) (ready : rmode -> Prop) (R : transc N) (f : tfun) : Prop :=
  forall a e, doc_domain f (val a) -> xgraph f (val a) e ->
  exists t, xle e (val t) /\ forall s, ready s -> exists s', ready s' /\ tr_up R f a s = (Ok t, s').

(** What is assumed of the C library: it honours the rounding mode.  In the
    downward mode it returns at most, in the upward mode at least, the exact
    value (or limit). *)
Definition lib_ok {p} (L : libm (fnum p)) : Prop :=
  forall f x v, xgraph f (fval x) v ->
    xle (fval (f := p_X p) (L f RDN x)) v /\ xle v (fval (f := p_X p) (L f RUP x)).

(** z contains f(r) for every r in x at which f is defined. *)
Definition contains_values {p} (f : tfun) (x z : itv (fnum p)) : Prop :=
  forall r t, fmem x r -> graph f r t -> fmem z t.
(** f is defined at no member of x. *)
Definition nowhere_defined {p} (f : tfun) (x : itv (fnum p)) : Prop :=
  forall r t, fmem x r -> ~ graph f r t.
Definition somewhere_defined {p} (f : tfun) (x : itv (fnum p)) : Prop :=
  exists r t, fmem x r /\ graph f r t.
