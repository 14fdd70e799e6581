(** * What the documentation asks of a user-defined base type and rounding policy

    doc/rounding.htm ("Requirements") and doc/numbers.htm ("Rounding"): each
    function f_down (f_up) of the rounding policy returns a number of the base
    type that is a lower (upper) bound on the true mathematical result,
      f_down(x,y) <= f(x,y) <= f_up(x,y),
    and need not return the best such number.  The constructor of the rounding
    class establishes the rounding mode its functions need, the destructor
    restores the previous one, unary minus is exact and the order is total. *)

From Coq Require Import Reals ZArith.
From Verif Require Import Outcome Base Checking Interval Utility Arith Arith2 FloatNum Spec Sem Ops.
Local Open Scope R_scope.

(** The bounds may be asked to hold for the exact results ([rnd] is the
    identity) or, as in box arithmetic, for results rounded by a function with
    the properties of a rounding of the extended reals. *)
Record rounding (rnd : ext -> ext) : Prop := {
  rnd_mono : forall a b, xle a b -> xle (rnd a) (rnd b);
  rnd_0 : rnd (Fin 0) = Fin 0;
  rnd_ninf : rnd NInf = NInf;
  rnd_pinf : rnd PInf = PInf
}.
Definition exactly (e : ext) : ext := e.

Section User.
Context {N : num} (rnd : ext -> ext) (val : T N -> ext).

(** [t] is a lower / upper bound of the result [e]. *)
Definition LB (e : ext) (t : T N) : Prop := xle (val t) (rnd e).
Definition UB (e : ext) (t : T N) : Prop := xle (rnd e) (val t).

(** On all arguments for which the real operation has a result, in every mode
    of [ready], the function returns a bound and stays in [ready]. *)
Definition bounds1 (B : ext -> T N -> Prop) (ready : rmode -> Prop) (f : ext -> ext)
    (op : T N -> M (T N)) : Prop :=
  forall a, f (val a) <> NaN -> exists t, B (f (val a)) t /\ runsI ready (op a) t.
Definition bounds2 (B : ext -> T N -> Prop) (ready : rmode -> Prop) (f : ext -> ext -> ext)
    (op : T N -> T N -> M (T N)) : Prop :=
  forall a b, f (val a) (val b) <> NaN ->
  exists t, B (f (val a) (val b)) t /\ runsI ready (op a b) t.

Record user_policy (P : policy N) (ready : rmode -> Prop) : Prop := {
  up_num : numspec N val;
  up_ck : ckspec val (p_ck P);
  (* the constructor and the destructor of the rounding class *)
  up_ready : exists s, ready s;
  up_init : p_prot P = Save -> forall s, exists s', ready s' /\ ar_init (p_ar P) s = (Ok tt, s');
  up_restore : p_prot P = Save ->
    forall s, exists m, rc_get (p_ctl P) s = (Ok m, s) /\
                        forall s', rc_set (p_ctl P) m s' = (Ok tt, s);
  (* f_down <= f <= f_up *)
  up_add_down : bounds2 LB ready xadd (add_down (p_ar P));
  up_add_up : bounds2 UB ready xadd (add_up (p_ar P));
  up_sub_down : bounds2 LB ready xsub (sub_down (p_ar P));
  up_sub_up : bounds2 UB ready xsub (sub_up (p_ar P));
  up_mul_down : bounds2 LB ready xmul (mul_down (p_ar P));
  up_mul_up : bounds2 UB ready xmul (mul_up (p_ar P));
  up_div_down : bounds2 LB ready xdiv (div_down (p_ar P));
  up_div_up : bounds2 UB ready xdiv (div_up (p_ar P));
  up_sqrt_down : bounds1 LB ready xsqrt (sqrt_down (p_ar P));
  up_sqrt_up : bounds1 UB ready xsqrt (sqrt_up (p_ar P))
}.

(** What the documentation does not ask, and pow needs: a product of nonnegative
    numbers is not rounded down below 0, and one of numbers between 0 and 1 is
    not rounded up above 1. *)
Record keeps_signs (P : policy N) (ready : rmode -> Prop) : Prop := {
  ks_down : forall a b r s t, val a = Fin r -> val b = Fin s -> 0 <= r -> 0 <= s ->
    runsI ready (mul_down (p_ar P) a b) t -> xle (Fin 0) (val t);
  ks_up : forall a b r s t, val a = Fin r -> val b = Fin s -> 0 <= r <= 1 -> 0 <= s <= 1 ->
    runsI ready (mul_up (p_ar P) a b) t -> xle (val t) (Fin 1)
}.

End User.

(** ** The value of an expression computed on numbers with rounded operations

    As [means] of Ops.v, with every arithmetic operation followed by [rnd]; a
    value exists only if no operation overflows.  Negation, abs, max, min, hull
    and intersection do not round.  Powers are given their exact value and are
    only considered when operations are exact. *)
Definition rel1_rnd (rnd : ext -> ext) (o : op1) (r t : R) : Prop :=
  match o with
  | U_neg | U_abs => rel1 o r t
  | U_sqrt | U_square | U_inverse => exists q, rel1 o r q /\ rnd (Fin q) = Fin t
  | U_pow _ => (forall e, rnd e = e) /\ rel1 o r t
  end.
Definition rel2_rnd (rnd : ext -> ext) (o : op2) (r s t : R) : Prop :=
  match o with
  | B_add | B_sub | B_mul | B_div => exists q, rel2 o r s q /\ rnd (Fin q) = Fin t
  | B_max | B_min | B_hull => rel2 o r s t
  end.
Section Computes.
Context {N : num} (rnd : ext -> ext) (val : T N -> ext).
Fixpoint computes (e : expr N) (rho : nat -> R) (t : R) : Prop :=
  match e with
  | e_var n => t = rho n
  | e_num v => val v = Fin t
  | e_1 o e1 => exists r, computes e1 rho r /\ rel1_rnd rnd o r t
  | e_2 o e1 e2 => exists r s, computes e1 rho r /\ computes e2 rho s /\ rel2_rnd rnd o r s t
  | e_in o e1 v => exists r s, computes e1 rho r /\ val v = Fin s /\ rel2_rnd rnd o r s t
  | e_ni o v e1 => exists r s, val v = Fin r /\ computes e1 rho s /\ rel2_rnd rnd o r s t
  | e_nn o v w => exists r s, val v = Fin r /\ val w = Fin s /\ rel2_rnd rnd (op_of o) r s t
  | e_intersect e1 e2 => computes e1 rho t /\ computes e2 rho t
  | e_widen e1 v => exists r s q, computes e1 rho r /\ val v = Fin s /\ Rabs (q - r) <= s /\
                                  rnd (Fin q) = Fin t
  end.
End Computes.

(** Expressions with a division by an interval or a negative power: their result
    may be unbounded although the operands are not, so they need a base type
    with infinities. *)
Fixpoint divides {N} (e : expr N) : Prop :=
  match e with
  | e_var _ | e_num _ | e_nn _ _ _ => False
  | e_1 o e1 => match o with U_inverse => True | U_pow n => (n < 0)%Z | _ => False end \/ divides e1
  | e_2 o e1 e2 => o = B_div \/ divides e1 \/ divides e2
  | e_in _ e1 _ | e_widen e1 _ => divides e1
  | e_ni o _ e1 => o = B_div \/ divides e1
  | e_intersect e1 e2 => divides e1 \/ divides e2
  end.
Fixpoint has_pow {N} (e : expr N) : Prop :=
  match e with
  | e_var _ | e_num _ | e_nn _ _ _ => False
  | e_1 o e1 => match o with U_pow _ => True | _ => False end \/ has_pow e1
  | e_2 _ e1 e2 | e_intersect e1 e2 => has_pow e1 \/ has_pow e2
  | e_in _ e1 _ | e_ni _ _ e1 | e_widen e1 _ => has_pow e1
  end.
