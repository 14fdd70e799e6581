(** * Specification vocabulary for comparisons over any base type

    Nothing is asked of the base type but a total order, and nothing of the
    checking policy but two tests. *)

From Coq Require Import ZArith Bool.
From Verif Require Import Outcome Base Interval Spec Compare.

Section Order.
Context (N : num).
(** The operators < <= == are those of a total order. *)
Record ordered_type : Prop := {
  oy_total : forall a b, n_le N a b = true \/ n_le N b a = true;
  oy_trans : forall a b c, n_le N a b = true -> n_le N b c = true -> n_le N a c = true;
  oy_lt : forall a b, n_lt N a b = true <-> ~ n_le N b a = true;
  oy_eq : forall a b, n_eq N a b = true <-> n_le N a b = true /\ n_le N b a = true
}.
(** a o b, for two numbers. *)
Definition ty_holds (o : rel) (a b : T N) : Prop :=
  match o with
  | Lt => n_lt N a b = true | Le => n_le N a b = true
  | Gt => n_lt N b a = true | Ge => n_le N b a = true
  | Eq => n_eq N a b = true | Ne => n_eq N a b = false
  end.
Definition every_pair (o : rel) (x y : T N -> Prop) : Prop := forall a b, x a -> y b -> ty_holds o a b.
Definition a_pair (o : rel) (x y : T N -> Prop) : Prop := exists a b, x a /\ y b /\ ty_holds o a b.
(** The numbers in an interval; the numbers equal to a number. *)
Definition within (x : itv N) (a : T N) : Prop := n_le N (low x) a = true /\ n_le N a (up x) = true.
Definition same_as (v a : T N) : Prop := n_eq N a v = true.
(** The policy takes x for the empty interval. *)
Definition taken_empty (P : policy N) (x : itv N) : Prop := ck_is_empty (p_ck P) (low x) (up x) = true.
(** An interval with members that the policy does not take for the empty one. *)
Definition proper (P : policy N) (x : itv N) : Prop := ~ taken_empty P x /\ n_le N (low x) (up x) = true.
(** is_nan answers b for v (rather than throw). *)
Definition nan_test (P : policy N) (v : T N) (b : bool) : Prop := returns (ck_is_nan (p_ck P) v) b.

(** true when all pairs satisfy o, false when none does, otherwise comparison_error. *)
Definition decides (m : M bool) (o : rel) (x y : T N -> Prop) : Prop :=
  (every_pair o x y /\ returns m true) \/ (~ a_pair o x y /\ returns m false) \/
  (a_pair o x y /\ ~ every_pair o x y /\ throws m ComparisonError).
Definition decides3 (m : M tri) (o : rel) (x y : T N -> Prop) : Prop :=
  (every_pair o x y /\ returns m TTrue) \/ (~ a_pair o x y /\ returns m TFalse) \/
  (a_pair o x y /\ ~ every_pair o x y /\ returns m TIndeterminate).
(** The call returns the truth value of a proposition. *)
Definition answers (m : M bool) (Q : Prop) : Prop := exists b, returns m b /\ (b = true <-> Q).
(** Lexicographic comparison of [l,u] and [l',u']: of the lower bounds first. *)
Definition lex_holds (o : rel) (l u l' u' : T N) : Prop :=
  match o with
  | Lt => ty_holds Lt l l' \/ (ty_holds Eq l l' /\ ty_holds Lt u u')
  | Le => ty_holds Lt l l' \/ (ty_holds Eq l l' /\ ty_holds Le u u')
  | Gt => ty_holds Gt l l' \/ (ty_holds Eq l l' /\ ty_holds Gt u u')
  | Ge => ty_holds Gt l l' \/ (ty_holds Eq l l' /\ ty_holds Ge u u')
  | Eq => ty_holds Eq l l' /\ ty_holds Eq u u'
  | Ne => ~ (ty_holds Eq l l' /\ ty_holds Eq u u')
  end.
(** Inclusion of sets of numbers, by operator. *)
Definition set_holds (o : rel) (x y : T N -> Prop) : Prop :=
  let sub := forall a, x a -> y a in
  let sup := forall a, y a -> x a in
  match o with
  | Lt => sub /\ ~ sup | Le => sub | Gt => sup /\ ~ sub | Ge => sup
  | Eq => sub /\ sup | Ne => ~ (sub /\ sup)
  end.
(** The members of x, of which there are none when the policy takes it for the empty interval. *)
Definition elements (P : policy N) (x : itv N) (a : T N) : Prop := ~ taken_empty P x /\ within x a.
End Order.
