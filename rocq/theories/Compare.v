(** * Comparison operators (compare/certain.hpp, possible.hpp, lexicographic.hpp,
    set.hpp, tribool.hpp, explicit.hpp)

    The six operators of each namespace are modelled one by one, then gathered
    into one function of the operator. *)

From Coq Require Import ZArith Bool.
From Verif Require Import Outcome Base Checking Interval Utility.

(** The comparison operator written in the source. *)
Inductive rel := Lt | Le | Gt | Ge | Eq | Ne.

(** boost::logic::tribool *)
Inductive tri := TTrue | TFalse | TIndeterminate.

Section Compare.
Context {N : num} (P : policy N).
Notation I := (itv N).

(** detail/test_input.hpp:39-45: operands of different policies. *)
Definition test_input_2 (P2 : policy N) (x y : I) : bool :=
  ck_is_empty (p_ck P) (low x) (up x) || ck_is_empty (p_ck P2) (low y) (up y).

(** if (detail::test_input(x, y)) throw comparison_error(); return e; *)
Definition guarded {A} (P2 : policy N) (x y : I) (e : A) : M A :=
  if test_input_2 P2 x y then cerr else ret e.
Definition guarded_n {A} (x : I) (y : T N) (e : A) : M A :=
  let! b := test_input_in P x y in if b then cerr else ret e.

(** The default operators of interval.hpp, by operator. *)
Definition def_cmp (o : rel) : policy N -> I -> I -> M bool :=
  match o with
  | Lt => cmp_lt P | Le => cmp_le P | Gt => cmp_gt P
  | Ge => cmp_ge P | Eq => cmp_eq P | Ne => cmp_ne P
  end.
Definition def_cmpn (o : rel) : I -> T N -> M bool :=
  match o with
  | Lt => cmpn_lt P | Le => cmpn_le P | Gt => cmpn_gt P
  | Ge => cmpn_ge P | Eq => cmpn_eq P | Ne => cmpn_ne P
  end.

(** ** namespace compare::certain *)
(** compare/certain.hpp:23-27 *)
Definition certain_lt (P2 : policy N) (x y : I) : M bool :=
  guarded P2 x y (n_lt N (up x) (low y)).
(** compare/certain.hpp:30-34 *)
Definition certainn_lt (x : I) (y : T N) : M bool :=
  guarded_n x y (n_lt N (up x) y).
(** compare/certain.hpp:37-41 *)
Definition certain_le (P2 : policy N) (x y : I) : M bool :=
  guarded P2 x y (n_le N (up x) (low y)).
(** compare/certain.hpp:44-48 *)
Definition certainn_le (x : I) (y : T N) : M bool :=
  guarded_n x y (n_le N (up x) y).
(** compare/certain.hpp:51-55 *)
Definition certain_gt (P2 : policy N) (x y : I) : M bool :=
  guarded P2 x y (n_gt (low x) (up y)).
(** compare/certain.hpp:58-62 *)
Definition certainn_gt (x : I) (y : T N) : M bool :=
  guarded_n x y (n_gt (low x) y).
(** compare/certain.hpp:65-69 *)
Definition certain_ge (P2 : policy N) (x y : I) : M bool :=
  guarded P2 x y (n_ge (low x) (up y)).
(** compare/certain.hpp:72-76 *)
Definition certainn_ge (x : I) (y : T N) : M bool :=
  guarded_n x y (n_ge (low x) y).
(** compare/certain.hpp:79-83 *)
Definition certain_eq (P2 : policy N) (x y : I) : M bool :=
  guarded P2 x y (n_eq N (up x) (low y) && n_eq N (low x) (up y)).
(** compare/certain.hpp:86-90 *)
Definition certainn_eq (x : I) (y : T N) : M bool :=
  guarded_n x y (n_eq N (up x) y && n_eq N (low x) y).
(** compare/certain.hpp:93-97 *)
Definition certain_ne (P2 : policy N) (x y : I) : M bool :=
  guarded P2 x y (n_lt N (up x) (low y) || n_gt (low x) (up y)).
(** compare/certain.hpp:100-104 *)
Definition certainn_ne (x : I) (y : T N) : M bool :=
  guarded_n x y (n_lt N (up x) y || n_gt (low x) y).
Definition certain (o : rel) : policy N -> I -> I -> M bool :=
  match o with
  | Lt => certain_lt | Le => certain_le | Gt => certain_gt | Ge => certain_ge | Eq => certain_eq | Ne => certain_ne
  end.
Definition certainn (o : rel) : I -> T N -> M bool :=
  match o with
  | Lt => certainn_lt | Le => certainn_le | Gt => certainn_gt | Ge => certainn_ge | Eq => certainn_eq | Ne => certainn_ne
  end.

(** ** namespace compare::possible *)
(** compare/possible.hpp:23-27 *)
Definition possible_lt (P2 : policy N) (x y : I) : M bool :=
  guarded P2 x y (n_lt N (low x) (up y)).
(** compare/possible.hpp:30-34 *)
Definition possiblen_lt (x : I) (y : T N) : M bool :=
  guarded_n x y (n_lt N (low x) y).
(** compare/possible.hpp:37-41 *)
Definition possible_le (P2 : policy N) (x y : I) : M bool :=
  guarded P2 x y (n_le N (low x) (up y)).
(** compare/possible.hpp:44-48 *)
Definition possiblen_le (x : I) (y : T N) : M bool :=
  guarded_n x y (n_le N (low x) y).
(** compare/possible.hpp:51-55 *)
Definition possible_gt (P2 : policy N) (x y : I) : M bool :=
  guarded P2 x y (n_gt (up x) (low y)).
(** compare/possible.hpp:58-62 *)
Definition possiblen_gt (x : I) (y : T N) : M bool :=
  guarded_n x y (n_gt (up x) y).
(** compare/possible.hpp:65-69 *)
Definition possible_ge (P2 : policy N) (x y : I) : M bool :=
  guarded P2 x y (n_ge (up x) (low y)).
(** compare/possible.hpp:72-76 *)
Definition possiblen_ge (x : I) (y : T N) : M bool :=
  guarded_n x y (n_ge (up x) y).
(** compare/possible.hpp:79-83 *)
Definition possible_eq (P2 : policy N) (x y : I) : M bool :=
  guarded P2 x y (n_le N (low x) (up y) && n_ge (up x) (low y)).
(** compare/possible.hpp:86-90 *)
Definition possiblen_eq (x : I) (y : T N) : M bool :=
  guarded_n x y (n_le N (low x) y && n_ge (up x) y).
(** compare/possible.hpp:93-97 *)
Definition possible_ne (P2 : policy N) (x y : I) : M bool :=
  guarded P2 x y (n_ne (low x) (up y) || n_ne (up x) (low y)).
(** compare/possible.hpp:100-104 *)
Definition possiblen_ne (x : I) (y : T N) : M bool :=
  guarded_n x y (n_ne (low x) y || n_ne (up x) y).
Definition possible (o : rel) : policy N -> I -> I -> M bool :=
  match o with
  | Lt => possible_lt | Le => possible_le | Gt => possible_gt | Ge => possible_ge | Eq => possible_eq | Ne => possible_ne
  end.
Definition possiblen (o : rel) : I -> T N -> M bool :=
  match o with
  | Lt => possiblen_lt | Le => possiblen_le | Gt => possiblen_gt | Ge => possiblen_ge | Eq => possiblen_eq | Ne => possiblen_ne
  end.

(** ** namespace compare::lexicographic *)
(** compare/lexicographic.hpp:23-29 *)
Definition lexi_lt (P2 : policy N) (x y : I) : M bool :=
  guarded P2 x y (n_lt N (low x) (low y) || (n_eq N (low x) (low y) && n_lt N (up x) (up y))).
(** compare/lexicographic.hpp:32-36 *)
Definition lexin_lt (x : I) (y : T N) : M bool :=
  guarded_n x y (n_lt N (low x) y).
(** compare/lexicographic.hpp:39-45 *)
Definition lexi_le (P2 : policy N) (x y : I) : M bool :=
  guarded P2 x y (n_lt N (low x) (low y) || (n_eq N (low x) (low y) && n_le N (up x) (up y))).
(** compare/lexicographic.hpp:48-53 *)
Definition lexin_le (x : I) (y : T N) : M bool :=
  guarded_n x y (n_lt N (low x) y || (n_eq N (low x) y && n_le N (up x) y)).
(** compare/lexicographic.hpp:56-62 *)
Definition lexi_gt (P2 : policy N) (x y : I) : M bool :=
  guarded P2 x y (n_gt (low x) (low y) || (n_eq N (low x) (low y) && n_gt (up x) (up y))).
(** compare/lexicographic.hpp:65-70 *)
Definition lexin_gt (x : I) (y : T N) : M bool :=
  guarded_n x y (n_gt (low x) y || (n_eq N (low x) y && n_gt (up x) y)).
(** compare/lexicographic.hpp:73-79 *)
Definition lexi_ge (P2 : policy N) (x y : I) : M bool :=
  guarded P2 x y (n_gt (low x) (low y) || (n_eq N (low x) (low y) && n_ge (up x) (up y))).
(** compare/lexicographic.hpp:82-86 *)
Definition lexin_ge (x : I) (y : T N) : M bool :=
  guarded_n x y (n_ge (low x) y).
(** compare/lexicographic.hpp:89-93 *)
Definition lexi_eq (P2 : policy N) (x y : I) : M bool :=
  guarded P2 x y (n_eq N (low x) (low y) && n_eq N (up x) (up y)).
(** compare/lexicographic.hpp:96-100 *)
Definition lexin_eq (x : I) (y : T N) : M bool :=
  guarded_n x y (n_eq N (low x) y && n_eq N (up x) y).
(** compare/lexicographic.hpp:103-107 *)
Definition lexi_ne (P2 : policy N) (x y : I) : M bool :=
  guarded P2 x y (n_ne (low x) (low y) || n_ne (up x) (up y)).
(** compare/lexicographic.hpp:110-114 *)
Definition lexin_ne (x : I) (y : T N) : M bool :=
  guarded_n x y (n_ne (low x) y || n_ne (up x) y).
Definition lexi (o : rel) : policy N -> I -> I -> M bool :=
  match o with
  | Lt => lexi_lt | Le => lexi_le | Gt => lexi_gt | Ge => lexi_ge | Eq => lexi_eq | Ne => lexi_ne
  end.
Definition lexin (o : rel) : I -> T N -> M bool :=
  match o with
  | Lt => lexin_lt | Le => lexin_le | Gt => lexin_gt | Ge => lexin_ge | Eq => lexin_eq | Ne => lexin_ne
  end.

(** ** namespace compare::tribool *)
(** compare/tribool.hpp:24-30 *)
Definition tribool_lt (P2 : policy N) (x y : I) : M tri :=
  guarded P2 x y (
    if n_lt N (up x) (low y) then TTrue
    else if n_ge (low x) (up y) then TFalse else TIndeterminate).
(** compare/tribool.hpp:33-39 *)
Definition tribooln_lt (x : I) (y : T N) : M tri :=
  guarded_n x y (
    if n_lt N (up x) y then TTrue
    else if n_ge (low x) y then TFalse else TIndeterminate).
(** compare/tribool.hpp:42-48 *)
Definition tribool_le (P2 : policy N) (x y : I) : M tri :=
  guarded P2 x y (
    if n_le N (up x) (low y) then TTrue
    else if n_gt (low x) (up y) then TFalse else TIndeterminate).
(** compare/tribool.hpp:51-57 *)
Definition tribooln_le (x : I) (y : T N) : M tri :=
  guarded_n x y (
    if n_le N (up x) y then TTrue
    else if n_gt (low x) y then TFalse else TIndeterminate).
(** compare/tribool.hpp:60-66 *)
Definition tribool_gt (P2 : policy N) (x y : I) : M tri :=
  guarded P2 x y (
    if n_gt (low x) (up y) then TTrue
    else if n_le N (up x) (low y) then TFalse else TIndeterminate).
(** compare/tribool.hpp:69-75 *)
Definition tribooln_gt (x : I) (y : T N) : M tri :=
  guarded_n x y (
    if n_gt (low x) y then TTrue
    else if n_le N (up x) y then TFalse else TIndeterminate).
(** compare/tribool.hpp:78-84 *)
Definition tribool_ge (P2 : policy N) (x y : I) : M tri :=
  guarded P2 x y (
    if n_ge (low x) (up y) then TTrue
    else if n_lt N (up x) (low y) then TFalse else TIndeterminate).
(** compare/tribool.hpp:87-93 *)
Definition tribooln_ge (x : I) (y : T N) : M tri :=
  guarded_n x y (
    if n_ge (low x) y then TTrue
    else if n_lt N (up x) y then TFalse else TIndeterminate).
(** compare/tribool.hpp:96-102 *)
Definition tribool_eq (P2 : policy N) (x y : I) : M tri :=
  guarded P2 x y (
    if n_eq N (up x) (low y) && n_eq N (low x) (up y) then TTrue
    else if n_lt N (up x) (low y) || n_gt (low x) (up y) then TFalse else TIndeterminate).
(** compare/tribool.hpp:105-111 *)
Definition tribooln_eq (x : I) (y : T N) : M tri :=
  guarded_n x y (
    if n_eq N (up x) y && n_eq N (low x) y then TTrue
    else if n_lt N (up x) y || n_gt (low x) y then TFalse else TIndeterminate).
(** compare/tribool.hpp:114-120 *)
Definition tribool_ne (P2 : policy N) (x y : I) : M tri :=
  guarded P2 x y (
    if n_lt N (up x) (low y) || n_gt (low x) (up y) then TTrue
    else if n_eq N (up x) (low y) && n_eq N (low x) (up y) then TFalse else TIndeterminate).
(** compare/tribool.hpp:123-129 *)
Definition tribooln_ne (x : I) (y : T N) : M tri :=
  guarded_n x y (
    if n_lt N (up x) y || n_gt (low x) y then TTrue
    else if n_eq N (up x) y && n_eq N (low x) y then TFalse else TIndeterminate).
Definition tribool (o : rel) : policy N -> I -> I -> M tri :=
  match o with
  | Lt => tribool_lt | Le => tribool_le | Gt => tribool_gt | Ge => tribool_ge | Eq => tribool_eq | Ne => tribool_ne
  end.
Definition tribooln (o : rel) : I -> T N -> M tri :=
  match o with
  | Lt => tribooln_lt | Le => tribooln_le | Gt => tribooln_gt | Ge => tribooln_ge | Eq => tribooln_eq | Ne => tribooln_ne
  end.

(** ** namespace compare::set (operands of one policy, as [subset] etc.) *)
(** compare/set.hpp:24-27 *)
Definition set_lt (x y : I) : M bool := ret (proper_subset P x y).
(** compare/set.hpp:30-33 *)
Definition setn_lt (x : I) (y : T N) : M bool := cerr.
(** compare/set.hpp:36-39 *)
Definition set_le (x y : I) : M bool := ret (subset P x y).
(** compare/set.hpp:42-45 *)
Definition setn_le (x : I) (y : T N) : M bool := cerr.
(** compare/set.hpp:48-51 *)
Definition set_gt (x y : I) : M bool := ret (proper_subset P y x).
(** compare/set.hpp:54-57 *)
Definition setn_gt (x : I) (y : T N) : M bool := cerr.
(** compare/set.hpp:60-63 *)
Definition set_ge (x y : I) : M bool := ret (subset P y x).
(** compare/set.hpp:66-69 *)
Definition setn_ge (x : I) (y : T N) : M bool := cerr.
(** compare/set.hpp:72-75 *)
Definition set_eq (x y : I) : M bool := ret (equal P y x).
(** compare/set.hpp:78-81 *)
Definition setn_eq (x : I) (y : T N) : M bool := cerr.
(** compare/set.hpp:84-87 *)
Definition set_ne (x y : I) : M bool := ret (negb (equal P y x)).
(** compare/set.hpp:90-93 *)
Definition setn_ne (x : I) (y : T N) : M bool := cerr.
Definition setcmp (o : rel) : I -> I -> M bool :=
  match o with
  | Lt => set_lt | Le => set_le | Gt => set_gt | Ge => set_ge | Eq => set_eq | Ne => set_ne
  end.
Definition setcmpn (o : rel) : I -> T N -> M bool :=
  match o with
  | Lt => setn_lt | Le => setn_le | Gt => setn_gt | Ge => setn_ge | Eq => setn_eq | Ne => setn_ne
  end.
End Compare.

(** ** Explicit functions cerXX, posXX (compare/explicit.hpp): no checking *)
Section Explicit.
Context {N : num}.
Notation I := (itv N).
(** compare/explicit.hpp:25-28 *)
Definition cerlt (x y : I) : bool := n_lt N (up x) (low y).
(** compare/explicit.hpp:31-34 *)
Definition cerlt_in (x : I) (y : T N) : bool := n_lt N (up x) y.
(** compare/explicit.hpp:37-40 *)
Definition cerlt_ni (x : T N) (y : I) : bool := n_lt N x (low y).
(** compare/explicit.hpp:43-46 *)
Definition cerle (x y : I) : bool := n_le N (up x) (low y).
(** compare/explicit.hpp:49-52 *)
Definition cerle_in (x : I) (y : T N) : bool := n_le N (up x) y.
(** compare/explicit.hpp:55-58 *)
Definition cerle_ni (x : T N) (y : I) : bool := n_le N x (low y).
(** compare/explicit.hpp:61-64 *)
Definition cergt (x y : I) : bool := n_gt (low x) (up y).
(** compare/explicit.hpp:67-70 *)
Definition cergt_in (x : I) (y : T N) : bool := n_gt (low x) y.
(** compare/explicit.hpp:73-76 *)
Definition cergt_ni (x : T N) (y : I) : bool := n_gt x (up y).
(** compare/explicit.hpp:79-82 *)
Definition cerge (x y : I) : bool := n_ge (low x) (up y).
(** compare/explicit.hpp:85-88 *)
Definition cerge_in (x : I) (y : T N) : bool := n_ge (low x) y.
(** compare/explicit.hpp:91-94 *)
Definition cerge_ni (x : T N) (y : I) : bool := n_ge x (up y).
(** compare/explicit.hpp:97-100 *)
Definition cereq (x y : I) : bool := n_eq N (low x) (up y) && n_eq N (low y) (up x).
(** compare/explicit.hpp:103-106 *)
Definition cereq_in (x : I) (y : T N) : bool := n_eq N (low x) y && n_eq N (up x) y.
(** compare/explicit.hpp:109-112 *)
Definition cereq_ni (x : T N) (y : I) : bool := n_eq N x (low y) && n_eq N x (up y).
(** compare/explicit.hpp:115-118 *)
Definition cerne (x y : I) : bool := n_lt N (up x) (low y) || n_lt N (up y) (low x).
(** compare/explicit.hpp:121-124 *)
Definition cerne_in (x : I) (y : T N) : bool := n_lt N (up x) y || n_lt N y (low x).
(** compare/explicit.hpp:127-130 *)
Definition cerne_ni (x : T N) (y : I) : bool := n_lt N x (low y) || n_lt N (up y) x.
Definition cer (o : rel) : I -> I -> bool :=
  match o with
  | Lt => cerlt | Le => cerle | Gt => cergt | Ge => cerge | Eq => cereq | Ne => cerne
  end.
Definition cer_in (o : rel) : I -> T N -> bool :=
  match o with
  | Lt => cerlt_in | Le => cerle_in | Gt => cergt_in | Ge => cerge_in | Eq => cereq_in | Ne => cerne_in
  end.
Definition cer_ni (o : rel) : T N -> I -> bool :=
  match o with
  | Lt => cerlt_ni | Le => cerle_ni | Gt => cergt_ni | Ge => cerge_ni | Eq => cereq_ni | Ne => cerne_ni
  end.
(** compare/explicit.hpp:137-140 *)
Definition poslt (x y : I) : bool := n_lt N (low x) (up y).
(** compare/explicit.hpp:143-146 *)
Definition poslt_in (x : I) (y : T N) : bool := n_lt N (low x) y.
(** compare/explicit.hpp:149-152 *)
Definition poslt_ni (x : T N) (y : I) : bool := n_lt N x (up y).
(** compare/explicit.hpp:155-158 *)
Definition posle (x y : I) : bool := n_le N (low x) (up y).
(** compare/explicit.hpp:161-164 *)
Definition posle_in (x : I) (y : T N) : bool := n_le N (low x) y.
(** compare/explicit.hpp:167-170 *)
Definition posle_ni (x : T N) (y : I) : bool := n_le N x (up y).
(** compare/explicit.hpp:173-176 *)
Definition posgt (x y : I) : bool := n_gt (up x) (low y).
(** compare/explicit.hpp:179-182 *)
Definition posgt_in (x : I) (y : T N) : bool := n_gt (up x) y.
(** compare/explicit.hpp:185-188 *)
Definition posgt_ni (x : T N) (y : I) : bool := n_gt x (low y).
(** compare/explicit.hpp:191-194 *)
Definition posge (x y : I) : bool := n_ge (up x) (low y).
(** compare/explicit.hpp:197-200 *)
Definition posge_in (x : I) (y : T N) : bool := n_ge (up x) y.
(** compare/explicit.hpp:203-206 *)
Definition posge_ni (x : T N) (y : I) : bool := n_ge x (low y).
(** compare/explicit.hpp:209-212 *)
Definition poseq (x y : I) : bool := n_ge (up x) (low y) && n_ge (up y) (low x).
(** compare/explicit.hpp:215-218 *)
Definition poseq_in (x : I) (y : T N) : bool := n_ge (up x) y && n_ge y (low x).
(** compare/explicit.hpp:221-224 *)
Definition poseq_ni (x : T N) (y : I) : bool := n_ge x (low y) && n_ge (up y) x.
(** compare/explicit.hpp:227-230 *)
Definition posne (x y : I) : bool := n_ne (up x) (low y) || n_ne (up y) (low x).
(** compare/explicit.hpp:233-236 *)
Definition posne_in (x : I) (y : T N) : bool := n_ne (up x) y || n_ne y (low x).
(** compare/explicit.hpp:239-242 *)
Definition posne_ni (x : T N) (y : I) : bool := n_ne x (low y) || n_ne (up y) x.
Definition pos (o : rel) : I -> I -> bool :=
  match o with
  | Lt => poslt | Le => posle | Gt => posgt | Ge => posge | Eq => poseq | Ne => posne
  end.
Definition pos_in (o : rel) : I -> T N -> bool :=
  match o with
  | Lt => poslt_in | Le => posle_in | Gt => posgt_in | Ge => posge_in | Eq => poseq_in | Ne => posne_in
  end.
Definition pos_ni (o : rel) : T N -> I -> bool :=
  match o with
  | Lt => poslt_ni | Le => posle_ni | Gt => posgt_ni | Ge => posge_ni | Eq => poseq_ni | Ne => posne_ni
  end.
End Explicit.
