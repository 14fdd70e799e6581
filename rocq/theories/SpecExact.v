(** * What it means for a number type to be exact *)

From Coq Require Import Reals ZArith.
From Verif Require Import Outcome Base Interval FloatNum Spec ExactNum.
Local Open Scope R_scope.

(** [v] gives the real number that a value stands for.  Comparisons compare these
    numbers, and the operations compute exactly. *)
Record exact_field (F : exact_type) (v : ef_T F -> R) : Prop := {
  xf_lt : forall a b, ef_lt F a b = true <-> v a < v b;
  xf_le : forall a b, ef_le F a b = true <-> v a <= v b;
  xf_eq : forall a b, ef_eq F a b = true <-> v a = v b;
  xf_int : forall z, v (ef_int F z) = IZR z;
  xf_add : forall a b, v (ef_add F a b) = v a + v b;
  xf_sub : forall a b, v (ef_sub F a b) = v a - v b;
  xf_mul : forall a b, v (ef_mul F a b) = v a * v b;
  xf_div : forall a b, v b <> 0 -> v (ef_div F a b) = v a / v b;
  xf_opp : forall a, v (ef_opp F a) = - v a
}.

(** The reals between the bounds. *)
Definition xset {F} (v : ef_T F -> R) (x : itv (exact_num F)) : R -> Prop :=
  fun r => v (low x) <= r <= v (up x).
Definition iset (x : itv int_num) : R -> Prop := fun r => IZR (low x) <= r <= IZR (up x).

(** The call returns, whatever the rounding mode at the call, without changing it,
    an interval that is exactly the set [S]. *)
Definition gives_exactly {F} (v : ef_T F -> R) (m : M (itv (exact_num F))) (S : R -> Prop) : Prop :=
  forall mode, exists z, m mode = (Ok z, mode) /\ forall r, xset v z r <-> S r.

(** Machine integers: the call either returns exactly the set [S], with bounds in
    the range of int; or it has undefined behaviour, and then no interval of ints
    is the set [S]. *)
Definition int_itv (z : itv int_num) : Prop :=
  (-2147483648 <= low z <= up z /\ up z <= 2147483647)%Z.
Definition int_gives (m : M (itv int_num)) (S : R -> Prop) : Prop :=
  forall mode,
    (exists z, m mode = (Ok z, mode) /\ int_itv z /\ forall r, iset z r <-> S r) \/
    (m mode = (UB, mode) /\ ~ exists z, int_itv z /\ forall r, iset z r <-> S r).
