(** * Specification vocabulary for comparisons *)

From Coq Require Import Reals.
From Verif Require Import Outcome Base Compare Spec.
Local Open Scope R_scope.

(** The relation an operator denotes on real numbers. *)
Definition holds (o : rel) (r s : R) : Prop :=
  match o with
  | Lt => r < s | Le => r <= s | Gt => r > s | Ge => r >= s | Eq => r = s | Ne => r <> s
  end.
(** Every pair of elements / some pair of elements satisfies the relation. *)
Definition all_pairs (o : rel) (X Y : R -> Prop) : Prop := forall r s, X r -> Y s -> holds o r s.
Definition some_pair (o : rel) (X Y : R -> Prop) : Prop := exists r s, X r /\ Y s /\ holds o r s.

(** The three-way rule: a call answering a comparison returns true if all pairs
    satisfy it, false if none does, and throws comparison_error otherwise. *)
Definition three_way (m : M bool) (o : rel) (X Y : R -> Prop) : Prop :=
  (all_pairs o X Y /\ returns m true) \/
  (~ some_pair o X Y /\ returns m false) \/
  (some_pair o X Y /\ ~ all_pairs o X Y /\ throws m ComparisonError).

(** The relation an operator denotes on extended reals (infinite numbers). *)
Definition xholds (o : rel) (a b : ext) : Prop :=
  match o with
  | Lt => xlt a b | Le => xle a b | Gt => xlt b a | Ge => xle b a | Eq => a = b | Ne => a <> b
  end.

(** Lexicographic order of bounds. *)
Definition lex_lt (a b a' b' : ext) : Prop := xlt a a' \/ (a = a' /\ xlt b b').
Definition lex_le (a b a' b' : ext) : Prop := xlt a a' \/ (a = a' /\ xle b b').
