(** * The order laws asked of a base type without rounding (doc/numbers.htm)

    Nothing is said about real numbers here: the base type is any commutative
    ring (a field, where divisions are concerned) with an order that satisfies
    the laws of doc/numbers.htm, such as numbers with an infinitesimal part. *)

From Coq Require Import ZArith Ring_theory.
From Verif Require Import Outcome Base Interval Utility Arith Arith2 Spec ExactNum Ops.

Section Ordered.
Context (F : exact_type).
Notation t := (ef_T F).
Notation I := (itv (exact_num F)).
Definition o_le (a b : t) : Prop := ef_le F a b = true.
Definition o_lt (a b : t) : Prop := ef_lt F a b = true.
Definition o_eq (a b : t) : Prop := ef_eq F a b = true.
Notation o_0 := (ef_int F 0).
Notation o_1 := (ef_int F 1).

(** "Ordering": the operators < <= == are those of a total order. *)
Record total_order : Prop := {
  to_total : forall a b, o_le a b \/ o_le b a;
  to_trans : forall a b c, o_le a b -> o_le b c -> o_le a c;
  to_lt : forall a b, o_lt a b <-> ~ o_le b a;
  to_eq : forall a b, o_eq a b <-> o_le a b /\ o_le b a
}.

(** "Mathematical properties", the first four items. *)
Record order_laws : Prop := {
  ol_opp_0 : forall x, o_le o_0 x -> o_le (ef_opp F x) o_0;
  ol_opp : forall x y, o_le x y -> o_le (ef_opp F y) (ef_opp F x);
  ol_add : forall x y z, o_le x y -> o_le (ef_add F x z) (ef_add F y z);
  ol_mul : forall x y z, o_le x y -> o_le o_0 z -> o_le (ef_mul F x z) (ef_mul F y z)
}.
(** The fifth item. *)
Definition inverse_law : Prop := forall x y, o_lt o_0 x -> o_le x y ->
  o_lt o_0 (ef_div F o_1 y) /\ o_le (ef_div F o_1 y) (ef_div F o_1 x).

(** What the documentation takes for granted: the operators compute sums,
    differences, products and opposites, up to ==. *)
Record arithmetic : Prop := {
  ar_ring : ring_theory o_0 o_1 (ef_add F) (ef_mul F) (ef_sub F) (ef_opp F) o_eq;
  ar_ext : ring_eq_ext (ef_add F) (ef_mul F) (ef_opp F) o_eq
}.
(** The operator / computes quotients. *)
Definition quotient_law : Prop := forall a b, ~ o_eq b o_0 -> o_eq (ef_mul F (ef_div F a b) b) a.

Definition ordered_ring : Prop := total_order /\ order_laws /\ arithmetic.
Definition ordered_field : Prop := ordered_ring /\ inverse_law /\ quotient_law.

(** ** Members of intervals, and values of expressions, as numbers of the base type *)
Definition o_mem (x : I) (a : t) : Prop := o_le (low x) a /\ o_le a (up x).
Definition o_valid (x : I) : Prop := o_le (low x) (up x).

(** z is the least interval containing the results f a for a in x. *)
Definition o_image1 (f : t -> t) (x z : I) : Prop :=
  (forall a, o_mem x a -> o_mem z (f a)) /\
  (exists a, o_mem x a /\ o_eq (f a) (low z)) /\ (exists a, o_mem x a /\ o_eq (f a) (up z)).
Definition o_image2 (f : t -> t -> t) (x y z : I) : Prop :=
  (forall a b, o_mem x a -> o_mem y b -> o_mem z (f a b)) /\
  (exists a b, o_mem x a /\ o_mem y b /\ o_eq (f a b) (low z)) /\
  (exists a b, o_mem x a /\ o_mem y b /\ o_eq (f a b) (up z)).

Definition o_abs (a : t) : t := if ef_lt F a o_0 then ef_opp F a else a.
Fixpoint o_pow (a : t) (n : nat) : t :=
  match n with O => o_1 | S n => ef_mul F a (o_pow a n) end.
Definition o_max (a b : t) : t := if ef_le F a b then b else a.
Definition o_min (a b : t) : t := if ef_le F a b then a else b.

Definition o_rel1 (o : op1) (a v : t) : Prop :=
  match o with
  | U_neg => o_eq v (ef_opp F a)
  | U_abs => o_eq v (o_abs a)
  | U_sqrt => False               (* not an operation of such a type *)
  | U_square => o_eq v (ef_mul F a a)
  | U_inverse => ~ o_eq a o_0 /\ o_eq v (ef_div F o_1 a)
  | U_pow n =>
      if (0 <? n)%Z then o_eq v (o_pow a (Z.to_nat n))
      else if (n <? 0)%Z then ~ o_eq a o_0 /\ o_eq v (ef_div F o_1 (o_pow a (Z.to_nat (- n))))
      else ~ o_eq a o_0 /\ o_eq v o_1
  end.
Definition o_rel2 (o : op2) (a b v : t) : Prop :=
  match o with
  | B_add => o_eq v (ef_add F a b)
  | B_sub => o_eq v (ef_sub F a b)
  | B_mul => o_eq v (ef_mul F a b)
  | B_div => ~ o_eq b o_0 /\ o_eq v (ef_div F a b)
  | B_max => o_eq v (o_max a b)
  | B_min => o_eq v (o_min a b)
  | B_hull => o_le (o_min a b) v /\ o_le v (o_max a b)
  end.
(** The values of an expression at given values of its variables. *)
Fixpoint o_value (e : expr (exact_num F)) (rho : nat -> t) (v : t) : Prop :=
  match e with
  | e_var n => o_eq v (rho n)
  | e_num c => o_eq v c
  | e_1 o e1 => exists a, o_value e1 rho a /\ o_rel1 o a v
  | e_2 o e1 e2 => exists a b, o_value e1 rho a /\ o_value e2 rho b /\ o_rel2 o a b v
  | e_in o e1 c => exists a, o_value e1 rho a /\ o_rel2 o a c v
  | e_ni o c e1 => exists a, o_value e1 rho a /\ o_rel2 o c a v
  | e_nn o c d => o_rel2 (op_of o) c d v
  | e_intersect e1 e2 => o_value e1 rho v /\ o_value e2 rho v
  | e_widen e1 c => exists a, o_value e1 rho a /\ o_le (ef_sub F a c) v /\ o_le v (ef_add F a c)
  end.

(** Expressions with a division or a negative power. *)
Fixpoint uses_quotients (e : expr (exact_num F)) : Prop :=
  match e with
  | e_var _ | e_num _ => False
  | e_1 o e1 => match o with U_inverse => True | U_pow n => (n < 0)%Z | _ => False end \/ uses_quotients e1
  | e_2 o e1 e2 => o = B_div \/ uses_quotients e1 \/ uses_quotients e2
  | e_in o e1 _ | e_ni o _ e1 => o = B_div \/ uses_quotients e1
  | e_nn o _ _ => o = N_div
  | e_intersect e1 e2 => uses_quotients e1 \/ uses_quotients e2
  | e_widen e1 _ => uses_quotients e1
  end.
End Ordered.
Arguments o_le {F} a b.
Arguments o_lt {F} a b.
Arguments o_eq {F} a b.
Arguments o_mem {F} x a.
Arguments o_valid {F} x.
Arguments o_image1 {F} f x z.
Arguments o_image2 {F} f x y z.
Arguments o_abs {F} a.
Arguments o_pow {F} a n.
Arguments o_max {F} a b.
Arguments o_min {F} a b.
Arguments o_rel1 {F} o a v.
Arguments o_rel2 {F} o a b v.
Arguments uses_quotients {F} e.
Arguments o_value {F} e rho v.
