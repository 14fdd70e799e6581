(** * Interval-valued operations as data, and expressions over them

    The operators and functions of arith.hpp, arith2.hpp, arith3.hpp and
    utility.hpp that return an interval, named by constructors so that
    expressions and programs of any size can be quantified over. *)

From Coq Require Import Reals ZArith List.
From Verif Require Import Outcome Base Checking Interval Utility Arith Arith2 FloatNum Spec.
Local Open Scope R_scope.

(** One interval argument. *)
Inductive op1 := U_neg | U_abs | U_sqrt | U_square | U_inverse | U_pow (n : Z).
(** Two arguments, at least one of them an interval. *)
Inductive op2 := B_add | B_sub | B_mul | B_div | B_max | B_min | B_hull.
(** Two numbers. *)
Inductive opn := N_add | N_sub | N_mul | N_div | N_hull.

(** ** What they mean on reals: [rel o r t] when t is a result for r *)
Definition rel1 (o : op1) (r t : R) : Prop :=
  match o with
  | U_neg => t = - r
  | U_abs => t = Rabs r
  | U_sqrt => 0 <= r /\ t = sqrt r
  | U_square => t = r * r
  | U_inverse => r <> 0 /\ t = 1 / r
  | U_pow n =>
      if (0 <? n)%Z then t = r ^ Z.to_nat n
      else if (n <? 0)%Z then r <> 0 /\ t = / r ^ Z.to_nat (- n)
      else r <> 0 /\ t = 1                (* 0^0 is undefined *)
  end.
Definition rel2 (o : op2) (r s t : R) : Prop :=
  match o with
  | B_add => t = r + s
  | B_sub => t = r - s
  | B_mul => t = r * s
  | B_div => s <> 0 /\ t = r / s
  | B_max => t = Rmax r s
  | B_min => t = Rmin r s
  | B_hull => Rmin r s <= t <= Rmax r s
  end.
Definition op_of (o : opn) : op2 :=
  match o with N_add => B_add | N_sub => B_sub | N_mul => B_mul | N_div => B_div | N_hull => B_hull end.

(** The results for members of sets. *)
Definition img1 (o : op1) (X : R -> Prop) (t : R) : Prop := exists r, X r /\ rel1 o r t.
Definition img2 (o : op2) (X Y : R -> Prop) (t : R) : Prop := exists r s, X r /\ Y s /\ rel2 o r s t.

Section Ops.
Context {N : num} (P : policy N).
Notation I := (itv N).

(** ** The library functions they name *)
Definition run1 (o : op1) (x : I) : M I :=
  match o with
  | U_neg => op_neg P x | U_abs => u_abs P x | U_sqrt => i_sqrt P x | U_square => square P x
  | U_inverse => multiplicative_inverse P x | U_pow n => Arith2.pow P x n
  end.
Definition run2 (o : op2) (x y : I) : M I :=
  match o with
  | B_add => op_add P x y | B_sub => op_sub P x y | B_mul => op_mul P x y | B_div => op_div P x y
  | B_max => u_max P x y | B_min => u_min P x y | B_hull => hull P x y
  end.
Definition run_in (o : op2) (x : I) (v : T N) : M I :=
  match o with
  | B_add => op_add_in P x v | B_sub => op_sub_in P x v | B_mul => op_mul_in P x v | B_div => op_div_in P x v
  | B_max => u_max_in P x v | B_min => u_min_in P x v | B_hull => hull_in P x v
  end.
Definition run_ni (o : op2) (v : T N) (x : I) : M I :=
  match o with
  | B_add => op_add_ni P v x | B_sub => op_sub_ni P v x | B_mul => op_mul_ni P v x | B_div => op_div_ni P v x
  | B_max => u_max_ni P v x | B_min => u_min_ni P v x | B_hull => hull_ni P v x
  end.
Definition run_nn (o : opn) (v w : T N) : M I :=
  match o with
  | N_add => n_add P v w | N_sub => n_sub P v w | N_mul => n_mul P v w | N_div => n_div P v w
  | N_hull => hull_nn P v w
  end.
End Ops.

(** ** Expressions

    A client expression such as sqrt(x * x + 2) / y: variables are interval
    objects, [e_num] is a number converted by the constructor, and binary
    operators also have forms with one or two number operands. *)
Section Expr.
Context (N : num).
Inductive expr :=
| e_var (n : nat)
| e_num (v : T N)
| e_1 (o : op1) (e : expr)
| e_2 (o : op2) (e1 e2 : expr)
| e_in (o : op2) (e : expr) (v : T N)
| e_ni (o : op2) (v : T N) (e : expr)
| e_nn (o : opn) (v w : T N)
| e_intersect (e1 e2 : expr)
| e_widen (e : expr) (v : T N).

(** Evaluation: [env] gives the objects, [eo] resolves the unspecified order in
    which the operands of each node are evaluated. *)
Fixpoint eval (P : policy N) (eo : expr -> bool) (env : nat -> itv N) (e : expr) : M (itv N) :=
  match e with
  | e_var n => ret (env n)
  | e_num v => ctor_num P v
  | e_1 o e1 => let! x := eval P eo env e1 in run1 P o x
  | e_2 o e1 e2 =>
      let! xy := args2 (eo e) (eval P eo env e1) (eval P eo env e2) in run2 P o (fst xy) (snd xy)
  | e_in o e1 v => let! x := eval P eo env e1 in run_in P o x v
  | e_ni o v e1 => let! x := eval P eo env e1 in run_ni P o v x
  | e_nn o v w => run_nn P o v w
  | e_intersect e1 e2 =>
      let! xy := args2 (eo e) (eval P eo env e1) (eval P eo env e2) in intersect P (fst xy) (snd xy)
  | e_widen e1 v => let! x := eval P eo env e1 in widen P x v
  end.
End Expr.
Arguments e_var {N} n.
Arguments e_num {N} v.
Arguments e_1 {N} o e.
Arguments e_2 {N} o e1 e2.
Arguments e_in {N} o e v.
Arguments e_ni {N} o v e.
Arguments e_nn {N} o v w.
Arguments e_intersect {N} e1 e2.
Arguments e_widen {N} e v.
Arguments eval {N} P eo env e.

(** ** The real meaning of an expression

    [means val e rho t]: t is a value of e when variable n is the real [rho n].
    An intersection has the values common to both operands; a hull, the values
    between those of its operands; widen adds an error of at most v. *)
Section Means.
Context {N : num} (val : T N -> ext).
Fixpoint means (e : expr N) (rho : nat -> R) (t : R) : Prop :=
  match e with
  | e_var n => t = rho n
  | e_num v => val v = Fin t
  | e_1 o e1 => exists r, means e1 rho r /\ rel1 o r t
  | e_2 o e1 e2 => exists r s, means e1 rho r /\ means e2 rho s /\ rel2 o r s t
  | e_in o e1 v => exists r s, means e1 rho r /\ val v = Fin s /\ rel2 o r s t
  | e_ni o v e1 => exists r s, val v = Fin r /\ means e1 rho s /\ rel2 o r s t
  | e_nn o v w => exists r s, val v = Fin r /\ val w = Fin s /\ rel2 (op_of o) r s t
  | e_intersect e1 e2 => means e1 rho t /\ means e2 rho t
  | e_widen e1 v => exists r s, means e1 rho r /\ val v = Fin s /\ Rabs (t - r) <= s
  end.
(** Exponents are ints other than INT_MIN (C12); numbers are finite, and
    nonnegative as second argument of widen. *)
Fixpoint proper (e : expr N) : Prop :=
  match e with
  | e_var _ => True
  | e_num v => is_fin (val v)
  | e_1 o e1 => match o with U_pow n => (int_min < n <= int_max)%Z | _ => True end /\ proper e1
  | e_2 _ e1 e2 => proper e1 /\ proper e2
  | e_in _ e1 v => proper e1 /\ is_fin (val v)
  | e_ni _ v e1 => proper e1 /\ is_fin (val v)
  | e_nn _ v w => is_fin (val v) /\ is_fin (val w)
  | e_intersect e1 e2 => proper e1 /\ proper e2
  | e_widen e1 v => proper e1 /\ exists s, val v = Fin s /\ 0 <= s
  end.
End Means.
