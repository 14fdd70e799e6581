(** * What a program computes on machine integers, step by step

    The C++ operators on int: exact results that have to fit, division
    truncates towards zero.  An expression is run on ints instead of intervals;
    a step whose exact result does not fit is an overflow (undefined behaviour).
    Nothing here refers to the interval operations. *)

From Coq Require Import ZArith.
From Verif Require Import Base Interval Ops ExactNum.
Local Open Scope Z_scope.

Definition fits (v : Z) : Prop := -2147483648 <= v <= 2147483647.

(** The member of an interval of ints. *)
Definition i_mem (x : itv int_num) (a : Z) : Prop := low x <= a <= up x.

(** The exact result of one operation. *)
Definition i_rel1 (o : op1) (a v : Z) : Prop :=
  match o with
  | U_neg => v = - a
  | U_abs => v = Z.abs a
  | U_sqrt => False               (* not an operation of int *)
  | U_square => v = a * a
  | U_inverse => a <> 0 /\ v = Z.quot 1 a
  | U_pow n =>
      if 0 <? n then v = a ^ n
      else if n <? 0 then a <> 0 /\ v = Z.quot 1 (a ^ (- n))
      else a <> 0 /\ v = 1
  end.
Definition i_rel2 (o : op2) (a b v : Z) : Prop :=
  match o with
  | B_add => v = a + b
  | B_sub => v = a - b
  | B_mul => v = a * b
  | B_div => b <> 0 /\ v = Z.quot a b
  | B_max => v = Z.max a b
  | B_min => v = Z.min a b
  | B_hull => Z.min a b <= v <= Z.max a b
  end.
(** The exact results on the way: the powers a, a^2, ..., a^|n| as well. *)
Definition i_step1 (o : op1) (a v : Z) : Prop :=
  i_rel1 o a v \/
  match o with U_pow n => exists k, 0 < k <= Z.abs n /\ v = a ^ k | _ => False end.

Section Run.
Context (rho : nat -> Z).
(** [i_value e v]: running e on the ints [rho] can return v without overflow. *)
Fixpoint i_value (e : expr int_num) (v : Z) : Prop :=
  match e with
  | e_var n => v = rho n
  | e_num c => v = c
  | e_1 o e1 => exists a, i_value e1 a /\ i_rel1 o a v /\ (forall w, i_step1 o a w -> fits w)
  | e_2 o e1 e2 => exists a b, i_value e1 a /\ i_value e2 b /\ i_rel2 o a b v /\ fits v
  | e_in o e1 c => exists a, i_value e1 a /\ i_rel2 o a c v /\ fits v
  | e_ni o c e1 => exists a, i_value e1 a /\ i_rel2 o c a v /\ fits v
  | e_nn o c d => i_rel2 (op_of o) c d v /\ fits v
  | e_intersect e1 e2 => i_value e1 v /\ i_value e2 v
  | e_widen e1 c => exists a, i_value e1 a /\ Z.abs (v - a) <= c /\ fits v
  end.
(** [i_overflow e]: running e on the ints [rho] can overflow. *)
Fixpoint i_overflow (e : expr int_num) : Prop :=
  match e with
  | e_var _ | e_num _ => False
  | e_1 o e1 => i_overflow e1 \/ exists a w, i_value e1 a /\ i_step1 o a w /\ ~ fits w
  | e_2 o e1 e2 => i_overflow e1 \/ i_overflow e2 \/
      exists a b w, i_value e1 a /\ i_value e2 b /\ i_rel2 o a b w /\ ~ fits w
  | e_in o e1 c => i_overflow e1 \/ exists a w, i_value e1 a /\ i_rel2 o a c w /\ ~ fits w
  | e_ni o c e1 => i_overflow e1 \/ exists a w, i_value e1 a /\ i_rel2 o c a w /\ ~ fits w
  | e_nn o c d => exists w, i_rel2 (op_of o) c d w /\ ~ fits w
  | e_intersect e1 e2 => i_overflow e1 \/ i_overflow e2
  | e_widen e1 c => i_overflow e1 \/ exists a w, i_value e1 a /\ Z.abs (w - a) <= c /\ ~ fits w
  end.
End Run.

(** All numbers written in the expression are ints. *)
Fixpoint i_numbers (e : expr int_num) : Prop :=
  match e with
  | e_var _ => True
  | e_num c => fits c
  | e_1 _ e1 => i_numbers e1
  | e_2 _ e1 e2 | e_intersect e1 e2 => i_numbers e1 /\ i_numbers e2
  | e_in _ e1 c | e_ni _ c e1 | e_widen e1 c => i_numbers e1 /\ fits c
  | e_nn _ c d => fits c /\ fits d
  end.

(** z is the least interval of ints containing the quotients of members. *)
Definition i_quotients (x y z : itv int_num) : Prop :=
  (forall a b, i_mem x a -> i_mem y b -> i_mem z (Z.quot a b)) /\
  (exists a b, i_mem x a /\ i_mem y b /\ low z = Z.quot a b) /\
  (exists a b, i_mem x a /\ i_mem y b /\ up z = Z.quot a b).
